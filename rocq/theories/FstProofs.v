(** Proofs about the flat_segment_tree model. *)
From Coq Require Import List ZArith Lia Bool ZifyBool ZifyNat.
From Verif Require Import Base FstModel.
Import ListNotations.
Open Scope Z_scope.

Section P.
Context {V : Type}.
Variable veqb : V -> V -> bool.
Variable vnull : V.
Hypothesis veqb_ok : eqb_ok veqb.

Local Notation leaf := (Z * V)%type.
Local Notation fst_t := (@fst_t V).

Lemma veqb_refl a : veqb a a = true.
Proof. now apply veqb_ok. Qed.
Lemma veqb_neq a b : veqb a b = false <-> a <> b.
Proof.
  split; intros H.
  - intros E. apply veqb_ok in E. congruence.
  - destruct (veqb a b) eqn:E; auto. apply veqb_ok in E. contradiction.
Qed.

(** Strictly increasing keys. *)
Fixpoint sorted (l : list leaf) : Prop :=
  match l with
  | [] => True
  | a :: t => (forall b, In b t -> fst a < fst b) /\ sorted t
  end.

Lemma sorted_app l1 l2 :
  sorted (l1 ++ l2) <->
  sorted l1 /\ sorted l2 /\ (forall a b, In a l1 -> In b l2 -> fst a < fst b).
Proof.
  induction l1 as [|h t IH]; simpl.
  - firstorder.
  - rewrite IH. split.
    + intros (Hh & Ht & H2 & Hc). repeat split; auto.
      * intros b Hb. apply Hh, in_or_app; auto.
      * intros a b [<-|Ha] Hb; [apply Hh, in_or_app|]; auto.
    + intros ((Hh & Ht) & H2 & Hc). repeat split; auto.
      intros b Hb. apply in_app_or in Hb. destruct Hb; auto.
Qed.

Lemma sorted_cons a l : sorted (a :: l) <-> (forall b, In b l -> fst a < fst b) /\ sorted l.
Proof. reflexivity. Qed.

(** Neighbouring leaves carry different values; [o] is the value before the list. *)
Fixpoint adjp (o : option V) (l : list leaf) : Prop :=
  match l with
  | [] => True
  | a :: t => o <> Some (snd a) /\ adjp (Some (snd a)) t
  end.
Definition lasto (o : option V) (l : list leaf) : option V :=
  fold_left (fun _ a => Some (snd a)) l o.

Lemma lasto_app o l1 l2 : lasto o (l1 ++ l2) = lasto (lasto o l1) l2.
Proof. apply fold_left_app. Qed.

Lemma adjp_app o l1 l2 : adjp o (l1 ++ l2) <-> adjp o l1 /\ adjp (lasto o l1) l2.
Proof.
  revert o; induction l1 as [|h t IH]; intros o; simpl.
  - tauto.
  - rewrite IH. tauto.
Qed.

(** Value in force at [x]: value of the last leaf whose key is at most [x]. *)
Definition ev (x : Z) (l : list leaf) (d : V) : V :=
  fold_left (fun a n => if fst n <=? x then snd n else a) l d.

Lemma ev_app x l1 l2 d : ev x (l1 ++ l2) d = ev x l2 (ev x l1 d).
Proof. unfold ev. apply fold_left_app. Qed.
Lemma ev_cons x a l d : ev x (a :: l) d = ev x l (if fst a <=? x then snd a else d).
Proof. reflexivity. Qed.
Lemma ev_nil x d : ev x [] d = d.
Proof. reflexivity. Qed.

Lemma ev_gt x l d : (forall a, In a l -> x < fst a) -> ev x l d = d.
Proof.
  revert d; induction l as [|h t IH]; intros d H; [reflexivity|].
  rewrite ev_cons. destruct (fst h <=? x) eqn:E.
  - specialize (H h (or_introl eq_refl)). lia.
  - apply IH. intros a Ha. apply H. now right.
Qed.

Lemma last_def (q : list leaf) y d1 d2 : last (y :: q) d1 = last (y :: q) d2.
Proof.
  revert y. induction q as [|z q IH]; intros; [reflexivity|].
  change (last (y :: z :: q) d1) with (last (z :: q) d1).
  change (last (y :: z :: q) d2) with (last (z :: q) d2). apply IH.
Qed.

Lemma last_value_cons (a : leaf) (l : list leaf) (d : V) : last_value (a :: l) d = last_value l (snd a).
Proof.
  unfold last_value. destruct l as [|h t]; [reflexivity|].
  change (last (a :: h :: t) (0, d)) with (last (h :: t) (0, d)).
  f_equal. apply last_def.
Qed.

Lemma last_value_nil (d : V) : last_value (@nil leaf) d = d.
Proof. reflexivity. Qed.

Lemma last_value_app (l : list leaf) (a : leaf) (d : V) : last_value (l ++ [a]) d = snd a.
Proof.
  unfold last_value. now rewrite last_last.
Qed.

Lemma last_value_app2 (l1 l2 : list leaf) (d : V) : last_value (l1 ++ l2) d = last_value l2 (last_value l1 d).
Proof.
  revert d; induction l1 as [|h t IH]; intros d; [reflexivity|].
  simpl app. rewrite !last_value_cons. apply IH.
Qed.

Lemma ev_le x l d : (forall a, In a l -> fst a <= x) -> ev x l d = last_value l d.
Proof.
  revert d; induction l as [|h t IH]; intros d H; [reflexivity|].
  rewrite ev_cons, last_value_cons.
  pose proof (H h (or_introl eq_refl)). replace (fst h <=? x) with true by lia.
  apply IH. intros; apply H; now right.
Qed.

Lemma lasto_value o (l : list leaf) d : l <> [] -> lasto o l = Some (last_value l d).
Proof.
  destruct l as [|a l]; [congruence|]. intros _. revert a o d.
  induction l as [|b l IH]; intros a o d; [reflexivity|].
  rewrite last_value_cons. change (lasto o (a :: b :: l)) with (lasto (Some (snd a)) (b :: l)).
  apply IH.
Qed.

Lemma lasto_some (w : V) (l : list leaf) : lasto (Some w) l = Some (last_value l w).
Proof.
  destruct l; [reflexivity|]. rewrite last_value_cons.
  rewrite lasto_value with (d := w) by congruence. now rewrite last_value_cons.
Qed.

(** ** Well-formed trees *)

Definition wfL (mn mx : Z) (vr : V) (L : list leaf) : Prop :=
  sorted L /\ exists v0 X, L = (mn, v0) :: X ++ [(mx, vr)].

Lemma wfL_lt mn mx vr L : wfL mn mx vr L -> mn < mx.
Proof.
  intros [S (v0 & X & ->)]. destruct S as [S _].
  apply (S (mx, vr)). apply in_or_app. right. now left.
Qed.

Lemma wfL_bounds mn mx vr L a : wfL mn mx vr L -> In a L -> mn <= fst a <= mx.
Proof.
  intros [S (v0 & X & ->)] H.
  rewrite app_comm_cons in S, H. apply sorted_app in S. destruct S as (S1 & _ & S3).
  simpl in S1. apply in_app_or in H. destruct H as [[<-|H]|[<-|[]]]; simpl.
  - specialize (S3 (mn, v0) (mx, vr) (or_introl eq_refl) (or_introl eq_refl)). simpl in S3. lia.
  - destruct S1 as [S1 _]. specialize (S1 a H). specialize (S3 a (mx, vr) (or_intror H) (or_introl eq_refl)).
    simpl in *. lia.
  - specialize (S3 (mn, v0) (mx, vr) (or_introl eq_refl) (or_introl eq_refl)). simpl in S3. lia.
Qed.

Lemma left_leaf_wf mn mx vr t : wfL mn mx vr (leaves t) -> exists v, left_leaf t = Ok (mn, v).
Proof. intros [_ (v0 & X & E)]. unfold left_leaf. rewrite E. now exists v0. Qed.

Lemma right_leaf_app (t : fst_t) X r : leaves t = X ++ [r] -> right_leaf t = Ok r /\ right_idx t = length X.
Proof.
  intros E. unfold right_leaf, right_idx. rewrite E, app_length. simpl.
  replace (length X + 1 - 1)%nat with (length X) by lia.
  rewrite nth_error_app_mid. auto.
Qed.

Lemma right_leaf_wf mn mx vr t : wfL mn mx vr (leaves t) -> right_leaf t = Ok (mx, vr).
Proof.
  intros [_ (v0 & X & E)]. rewrite app_comm_cons in E.
  now apply right_leaf_app in E.
Qed.

(** ** get_insertion_pos_leaf *)

Lemma gip_spec key (l : list leaf) i :
  match gip key l i with
  | Some j => exists A a B, l = A ++ a :: B /\ j = (i + length A)%nat /\
              (forall b, In b A -> fst b < key) /\ key <= fst a
  | None => forall b, In b l -> fst b < key
  end.
Proof.
  revert i; induction l as [|[k v] t IH]; intros i; simpl.
  - tauto.
  - destruct (key <=? k) eqn:E.
    + exists [], (k, v), t. simpl. repeat split; try lia; try tauto.
    + specialize (IH (S i)). destruct (gip key t (S i)).
      * destruct IH as (A & a & B & -> & -> & HA & Ha).
        exists ((k, v) :: A), a, B. simpl. repeat split; auto; try lia.
        intros b [<-|Hb]; simpl; [lia|auto].
      * intros b [<-|Hb]; simpl; [lia|auto].
Qed.

(** Splitting a list at the first key not below [s]. *)
Lemma gip_split key (A B : list leaf) i :
  (forall b, In b A -> fst b < key) -> (forall b, In b B -> key <= fst b) -> B <> [] ->
  gip key (A ++ B) i = Some (i + length A)%nat.
Proof.
  revert i; induction A as [|[k v] t IH]; intros i HA HB NB; simpl.
  - destruct B as [|[k v] B]; [congruence|]. simpl.
    specialize (HB (k, v) (or_introl eq_refl)). simpl in HB.
    replace (key <=? k) with true by lia. f_equal; lia.
  - specialize (HA (k, v) (or_introl eq_refl)) as HA0. simpl in HA0.
    replace (key <=? k) with false by lia. rewrite IH; auto.
    + f_equal; lia.
    + intros; apply HA; now right.
Qed.

Lemma sorted_split key (L : list leaf) : sorted L ->
  exists A B, L = A ++ B /\ (forall b, In b A -> fst b < key) /\ (forall b, In b B -> key <= fst b).
Proof.
  induction L as [|[k v] t IH]; intros S.
  - exists [], []. simpl; tauto.
  - destruct S as [S1 S2]. destruct (Z_lt_le_dec k key).
    + destruct (IH S2) as (A & B & -> & HA & HB). exists ((k, v) :: A), B.
      simpl; repeat split; auto. intros b [<-|Hb]; simpl; auto.
    + exists [], ((k, v) :: t). simpl; repeat split; auto; try tauto.
      intros b [<-|Hb]; simpl; auto. specialize (S1 b Hb). simpl in S1. lia.
Qed.

Lemma gip_rev_split key (A B : list leaf) :
  (forall b, In b A -> fst b < key) -> (forall b, In b B -> key <= fst b) -> A ++ B <> [] ->
  get_insertion_pos_leaf_reverse key (A ++ B) (length (A ++ B) - 1) =
  match A with [] => None | _ => Some (length A - 1)%nat end.
Proof.
  intros HA HB NE.
  assert (forall n, (n < length (A ++ B))%nat -> (length A <= S n)%nat ->
    get_insertion_pos_leaf_reverse key (A ++ B) n =
    match A with [] => None | _ => Some (length A - 1)%nat end) as G.
  { induction n as [|n IH]; intros Hn HAn.
    - destruct A as [|a A].
      + simpl. destruct B as [|[k v] B]; [simpl in *; lia|]. simpl.
        specialize (HB (k, v) (or_introl eq_refl)). simpl in HB.
        replace (k <? key) with false by lia. reflexivity.
      + simpl in HAn. destruct A; [|simpl in HAn; lia]. destruct a as [k v]. simpl.
        specialize (HA (k, v) (or_introl eq_refl)). simpl in HA.
        replace (k <? key) with true by lia. reflexivity.
    - cbn [get_insertion_pos_leaf_reverse].
      destruct (nth_error (A ++ B) (S n)) as [[k v]|] eqn:E.
      2:{ apply nth_error_None in E. lia. }
      destruct (Nat.eq_dec (length A) (S (S n))) as [E1|E1].
      + rewrite nth_error_app1 in E by lia. apply nth_error_In in E. apply HA in E. simpl in E.
        replace (k <? key) with true by lia. destruct A; [simpl in E1; lia|]. f_equal. lia.
      + rewrite nth_error_app2 in E by lia. apply nth_error_In in E. apply HB in E. simpl in E.
        replace (k <? key) with false by lia. apply IH; lia. }
  apply G.
  - destruct (A ++ B); [congruence|simpl; lia].
  - rewrite app_length. lia.
Qed.

(** ** Normal form of an insertion *)

(** Leaves produced by inserting [s,e) := v into A ++ M ++ E :: R. *)
Definition ins_start (A : list leaf) (s : Z) (v : V) : list leaf :=
  match A with
  | [] => [(s, v)]
  | _ => if veqb (last_value A v) v then [] else [(s, v)]
  end.
Definition ins_end (E : leaf) (R : list leaf) (e : Z) (v old : V) : list leaf :=
  if fst E =? e then
    match R with
    | [] => E :: R
    | _ => if veqb (snd E) v then R else E :: R
    end
  else if veqb old v then E :: R else (e, old) :: E :: R.
Definition ins_idx (A : list leaf) (v : V) : nat :=
  match A with
  | [] => O
  | _ => if veqb (last_value A v) v then (length A - 1)%nat else length A
  end.

Lemma last_value_default (A : list leaf) d d' : A <> [] -> last_value A d = last_value A d'.
Proof.
  destruct A as [|a A]; [congruence|]. intros _.
  now rewrite !last_value_cons.
Qed.

Lemma list_snoc {X : Type} (l : list X) : l <> [] -> exists l' a, l = l' ++ [a].
Proof.
  intros H. destruct (exists_last H) as (l' & a & E). eauto.
Qed.

(* the three parts of the list around new_start_node and end_pos *)
Lemma parts (P M : list leaf) x Q :
  firstn (S (length P)) ((P ++ [x]) ++ M ++ Q) = P ++ [x] /\
  firstn ((S (length P) + length M) - S (length P)) (skipn (S (length P)) ((P ++ [x]) ++ M ++ Q)) = M /\
  skipn (S (length P) + length M) ((P ++ [x]) ++ M ++ Q) = Q.
Proof.
  assert (S (length P) = length (P ++ [x])) as E by (rewrite app_length; simpl; lia).
  rewrite E. rewrite firstn_app_exact, skipn_app_exact.
  repeat split.
  - replace (_ + _ - _)%nat with (length M) by lia. apply firstn_app_exact.
  - rewrite app_assoc. rewrite <- app_length. apply skipn_app_exact.
Qed.

Lemma insert_end_nf (pre R : list leaf) (E : leaf) e v old (removed chg : bool) :
  exists chg', insert_end veqb pre (E :: R) e v old removed chg = Ok (pre ++ ins_end E R e v old, chg')
  /\ chg' = (chg || removed ||
      (if fst E =? e then match R with [] => false | _ => veqb (snd E) v end else negb (veqb old v)))%bool.
Proof.
  destruct E as [ke ve]. unfold insert_end, ins_end. simpl fst; simpl snd.
  destruct (ke =? e) eqn:E1.
  - destruct R as [|r R].
    + eexists; split; [reflexivity|]. now destruct chg, removed.
    + destruct (veqb ve v) eqn:E2; eexists; (split; [reflexivity|]); now destruct chg, removed.
  - destruct (veqb old v) eqn:E2; eexists; (split; [reflexivity|]); now destruct chg, removed.
Qed.

Definition ins_changed (A M : list leaf) (E : leaf) (R : list leaf) (s e : Z) (v : V) : bool :=
  let merged := match A with [] => false | _ => veqb (last_value A v) v end in
  let start_chg :=
    if merged then negb (match M with [] => true | _ => false end)
    else match M with
         | (k, w) :: M' =>
             if k =? s then negb (veqb w v) || negb (match M' with [] => true | _ => false end)
             else true
         | [] => true
         end in
  (start_chg ||
   (if fst E =? e then match R with [] => false | _ => veqb (snd E) v end
    else negb (veqb (last_value M (last_value A v)) v)))%bool.

Lemma insert_to_pos_nf (t : fst_t) A M E R s e v :
  leaves t = A ++ M ++ E :: R ->
  (forall b, In b M -> s <= fst b < e) -> e <= fst E -> s < e ->
  (A = [] -> exists w M', M = (s, w) :: M') ->
  sorted (leaves t) ->
  exists t', insert_to_pos veqb t (length A) s e v =
    Ok (t', ins_idx A v, ins_changed A M E R s e v) /\
    leaves t' = A ++ ins_start A s v ++ ins_end E R e v (last_value M (last_value A v)) /\
    init_val t' = init_val t /\ root_node t' = root_node t /\
    valid_tree t' = (if ins_changed A M E R s e v then false else valid_tree t).
Proof.
  intros EL HM HE Hse HA0 HS.
  assert (get_insertion_pos_leaf e (leaves t) (length A) = Some (length A + length M)%nat) as EJ.
  { unfold get_insertion_pos_leaf. rewrite EL, skipn_app_exact. apply gip_split.
    - intros b Hb. apply HM in Hb. lia.
    - rewrite EL in HS. apply sorted_app in HS. destruct HS as (_ & HS & _).
      apply sorted_app in HS. destruct HS as (_ & [HS _] & _).
      intros b [<-|Hb]; auto. specialize (HS b Hb). lia.
    - congruence. }
  unfold insert_to_pos. rewrite EJ. unfold insert_start.
  assert (exists ki vi Q, leaves t = A ++ (ki, vi) :: Q /\ (M ++ E :: R) = (ki, vi) :: Q) as (ki & vi & Q & EL2 & EQ).
  { rewrite EL. destruct M as [|[k w] M]; simpl.
    - destruct E. eauto.
    - eauto. }
  rewrite EL2. rewrite nth_error_app_mid. cbn [deref bind].
  rewrite <- EL2.
  destruct A as [|a A0] eqn:EA.
  - (* no previous node: start_pos is the leftmost leaf *)
    destruct (HA0 eq_refl) as (w & M' & ->).
    simpl in EQ. injection EQ as <- <- <-.
    rewrite Z.eqb_refl. cbn [bind length].
    replace ((0 + S (length M') + 0 <=? 0)%nat) with false by lia.
    rewrite EL. simpl set_nth.
    destruct (parts [] M' (s, v) (E :: R)) as (P1 & P2 & P3). simpl app in P1, P2, P3. cbn [length] in *.
    replace (0 + S (length M') + 0)%nat with (1 + length M')%nat by lia.
    rewrite P1, P2, P3.
    destruct (insert_end_nf [(s, v)] R E e v (last_value M' w)
      (match M' with [] => false | _ => true end) (negb (veqb w v))) as (c' & -> & Ec').
    cbn [bind].
    assert (c' = ins_changed [] ((s, w) :: M') E R s e v) as <-.
    { rewrite Ec'. unfold ins_changed. rewrite Z.eqb_refl.
      rewrite last_value_cons. cbn [snd].
      destruct M'; simpl; now destruct (veqb w v). }
    eexists; split; [reflexivity|]. cbn [leaves init_val root_node valid_tree].
    repeat split. rewrite last_value_cons. reflexivity.
  - destruct (list_snoc (a :: A0)) as (A' & p & EAp); [congruence|].
    rewrite EAp in *. clear a A0 EA EAp.
    assert (length (A' ++ [p]) = S (length A')) as EAl by (rewrite app_length; simpl; lia).
    rewrite EAl.
    assert (nth_error (leaves t) (length A') = Some p) as Eprev.
    { rewrite EL, <- app_assoc. simpl. apply nth_error_app_mid. }
    rewrite Eprev. destruct p as [kp vp].
    assert (last_value (A' ++ [(kp, vp)]) v = vp) as ELv by apply last_value_app.
    assert (ins_start (A' ++ [(kp, vp)]) s v = if veqb vp v then [] else [(s, v)]) as EIS.
    { unfold ins_start. rewrite ELv. now destruct A'. }
    assert (ins_idx (A' ++ [(kp, vp)]) v = if veqb vp v then length A' else S (length A')) as EII.
    { unfold ins_idx. rewrite ELv, EAl. destruct A'; cbn [app]; destruct (veqb vp v); try reflexivity; lia. }
    rewrite EIS, EII.
    cbn [pred].
    destruct (ki =? s) eqn:Eks.
    + (* a leaf at the start key *)
      assert (exists M', M = (s, vi) :: M') as (M' & ->).
      { destruct M as [|m M']; simpl in EQ.
        - injection EQ as E1 _. subst E. cbn [fst] in HE. lia.
        - injection EQ as E1 _. subst m. exists M'. assert (ki = s) by lia. now subst. }
      simpl in EQ. assert (ki = s) by lia. subst ki. injection EQ as <-.
      destruct (veqb vp v) eqn:Evp; cbn [bind].
      * (* extend the previous segment *)
        replace ((S (length A') + length ((s, vi) :: M') + 0 <=? length A')%nat) with false by lia.
        rewrite EL.
        destruct (parts A' ((s, vi) :: M') (kp, vp) (E :: R)) as (P1 & P2 & P3).
        rewrite Nat.add_0_r. rewrite P1, P2, P3.
        destruct (insert_end_nf (A' ++ [(kp, vp)]) R E e v (last_value ((s, vi) :: M') vi) true false) as (c' & -> & Ec').
        cbn [bind].
        assert (c' = ins_changed (A' ++ [(kp, vp)]) ((s, vi) :: M') E R s e v) as <-.
        { rewrite Ec'. unfold ins_changed. rewrite ELv, Evp.
          destruct A'; reflexivity. }
        eexists; split; [reflexivity|]. cbn [leaves init_val root_node valid_tree].
        repeat split. rewrite !last_value_cons. reflexivity.
      * (* overwrite the value of the leaf *)
        replace ((S (length A') + length ((s, vi) :: M') + 0 <=? S (length A'))%nat) with false by (simpl length; lia).
        assert (set_nth (S (length A')) (s, v) (leaves t) = ((A' ++ [(kp, vp)]) ++ [(s, v)]) ++ M' ++ E :: R) as ES.
        { rewrite EL. rewrite <- EAl. simpl ((_ :: _) ++ _). rewrite set_nth_app. now rewrite <- !app_assoc. }
        rewrite ES.
        destruct (parts (A' ++ [(kp, vp)]) M' (s, v) (E :: R)) as (P1 & P2 & P3). rewrite EAl in *.
        replace (S (length A') + length ((s, vi) :: M') + 0)%nat with (S (S (length A')) + length M')%nat by (simpl length; lia).
        rewrite P1, P2, P3.
        destruct (insert_end_nf ((A' ++ [(kp, vp)]) ++ [(s, v)]) R E e v (last_value M' vi)
          (match M' with [] => false | _ => true end) (negb (veqb vi v))) as (c' & -> & Ec').
        cbn [bind].
        assert (c' = ins_changed (A' ++ [(kp, vp)]) ((s, vi) :: M') E R s e v) as <-.
        { rewrite Ec'. unfold ins_changed. rewrite ELv, Evp, Z.eqb_refl.
          rewrite last_value_cons. cbn [snd].
          destruct A'; destruct M'; simpl; now destruct (veqb vi v). }
        eexists; split; [reflexivity|]. cbn [leaves init_val root_node valid_tree].
        repeat split. rewrite !last_value_cons. now rewrite <- !app_assoc.
    + (* no leaf at the start key *)
      destruct (veqb vp v) eqn:Evp; cbn [bind].
      * replace ((S (length A') + length M + 0 <=? length A')%nat) with false by lia.
        rewrite EL.
        destruct (parts A' M (kp, vp) (E :: R)) as (P1 & P2 & P3).
        rewrite Nat.add_0_r. rewrite P1, P2, P3.
        destruct (insert_end_nf (A' ++ [(kp, vp)]) R E e v (last_value M vp)
          (match M with [] => false | _ => true end) false) as (c' & -> & Ec').
        cbn [bind].
        assert (c' = ins_changed (A' ++ [(kp, vp)]) M E R s e v) as <-.
        { rewrite Ec'. unfold ins_changed. rewrite ELv, Evp.
          destruct A'; destruct M; reflexivity. }
        eexists; split; [reflexivity|]. cbn [leaves init_val root_node valid_tree].
        repeat split. rewrite ELv. reflexivity.
      * replace ((S (length A') + length M + 1 <=? S (length A'))%nat) with false by lia.
        assert (insert_at (S (length A')) (s, v) (leaves t) = ((A' ++ [(kp, vp)]) ++ [(s, v)]) ++ M ++ E :: R) as ES.
        { unfold insert_at. rewrite EL, <- EAl, firstn_app_exact, skipn_app_exact. now rewrite <- !app_assoc. }
        rewrite ES.
        destruct (parts (A' ++ [(kp, vp)]) M (s, v) (E :: R)) as (P1 & P2 & P3). rewrite EAl in *.
        replace (S (length A') + length M + 1)%nat with (S (S (length A')) + length M)%nat by lia.
        rewrite P1, P2, P3.
        destruct (insert_end_nf ((A' ++ [(kp, vp)]) ++ [(s, v)]) R E e v (last_value M vp)
          (match M with [] => false | _ => true end) true) as (c' & -> & Ec').
        cbn [bind].
        assert (c' = ins_changed (A' ++ [(kp, vp)]) M E R s e v) as <-.
        { rewrite Ec'. unfold ins_changed. rewrite ELv, Evp.
          destruct A'; (destruct M as [|[k w] M]; [reflexivity|]);
          simpl in EQ; injection EQ as -> -> _; rewrite Eks; reflexivity. }
        eexists; split; [reflexivity|]. cbn [leaves init_val root_node valid_tree].
        repeat split. rewrite ELv. now rewrite <- !app_assoc.
Qed.



Lemma split3 mn mx vr (L : list leaf) s e :
  wfL mn mx vr L -> mn <= s -> s < e -> e <= mx ->
  exists A M E R, L = A ++ M ++ E :: R /\
    (forall b, In b A -> fst b < s) /\ (forall b, In b M -> s <= fst b < e) /\
    (forall b, In b (E :: R) -> e <= fst b) /\
    (A = [] -> exists w M', M = (s, w) :: M').
Proof.
  intros W Hs Hse He. destruct W as [S W].
  destruct (sorted_split s L S) as (A & B & -> & HA & HB).
  pose proof S as S0. apply sorted_app in S. destruct S as (SA & SB & SAB).
  destruct (sorted_split e B SB) as (M & Q & -> & HM & HQ).
  assert (exists E R, Q = E :: R) as (E & R & ->).
  { destruct Q as [|E R]; [|eauto]. exfalso.
    destruct W as (v0 & X & EW).
    assert (In (mx, vr) (A ++ M ++ [])) as HI.
    { rewrite EW. right. apply in_or_app. right. now left. }
    apply in_app_or in HI. destruct HI as [HI|HI].
    - apply HA in HI. simpl in HI. lia.
    - rewrite app_nil_r in HI. apply HM in HI. simpl in HI. lia. }
  exists A, M, E, R. repeat split; auto.
  - apply HB. apply in_or_app. now left.
  - intros ->. destruct W as (v0 & X & EW). simpl in EW.
    destruct M as [|m M]; simpl in EW; injection EW as -> _.
    + specialize (HQ (mn, v0) (or_introl eq_refl)). simpl in HQ. lia.
    + exists v0, M. specialize (HB (mn, v0) (or_introl eq_refl)). simpl in HB. f_equal. f_equal. lia.
Qed.

Lemma last_value_AM (A M : list leaf) s d v :
  (A = [] -> exists w M', M = (s, w) :: M') ->
  last_value M (last_value A v) = last_value (A ++ M) d.
Proof.
  intros H. rewrite <- last_value_app2. apply last_value_default.
  destruct A as [|a A]; [|simpl; congruence].
  destruct (H eq_refl) as (w & M' & ->). simpl. congruence.
Qed.

Lemma ins_start_last (A : list leaf) s v d : last_value (A ++ ins_start A s v) d = v.
Proof.
  unfold ins_start. destruct A as [|a A]; [reflexivity|].
  destruct (veqb (last_value (a :: A) v) v) eqn:E.
  - apply veqb_ok in E. rewrite app_nil_r. etransitivity; [|exact E]. apply last_value_default. congruence.
  - apply last_value_app.
Qed.

Lemma ins_start_keys A s v b : In b (ins_start A s v) -> b = (s, v).
Proof.
  unfold ins_start. destruct A as [|a A]; [|destruct (veqb _ v)]; simpl; intuition congruence.
Qed.

Lemma ins_end_keys E R e v old b : e <= fst E -> In b (ins_end E R e v old) -> b = (e, old) /\ e < fst E \/ b = E \/ In b R.
Proof.
  intros HE. unfold ins_end. destruct (fst E =? e) eqn:E1.
  - destruct R; [simpl; intuition|]. destruct (veqb (snd E) v); simpl; intuition.
  - destruct (veqb old v); simpl; [intuition|]. intros [<-|H]; [left; split; [reflexivity|lia]|intuition].
Qed.

Lemma ins_ev A M E R s e v x d :
  (forall b, In b A -> fst b < s) -> (forall b, In b M -> s <= fst b < e) ->
  (forall b, In b (E :: R) -> e <= fst b) -> s < e ->
  (A = [] -> exists w M', M = (s, w) :: M') ->
  sorted (E :: R) ->
  (R = [] -> x < fst E) ->
  ev x (A ++ ins_start A s v ++ ins_end E R e v (last_value M (last_value A v))) d =
  (if (s <=? x) && (x <? e) then v else ev x (A ++ M ++ E :: R) d).
Proof.
  intros HA HM HE Hse HA0 HS Hlast.
  rewrite last_value_AM with (s := s) (d := d) by assumption.
  set (old := last_value (A ++ M) d).
  destruct (Z_lt_le_dec x s) as [Hx|Hx].
  - replace ((s <=? x) && (x <? e)) with false by lia.
    rewrite !ev_app. rewrite (ev_gt x (ins_start A s v)).
    2:{ intros a Ha. apply ins_start_keys in Ha. subst a. simpl. lia. }
    rewrite (ev_gt x (ins_end _ _ _ _ _)).
    2:{ intros a Ha. apply ins_end_keys in Ha; [|apply HE; now left].
        destruct Ha as [[-> _]|[->|Ha]]; simpl; [lia| |].
        - specialize (HE E (or_introl eq_refl)). lia.
        - specialize (HE a (or_intror Ha)). lia. }
    rewrite (ev_gt x M) by (intros a Ha; apply HM in Ha; lia).
    rewrite (ev_gt x (E :: R)) by (intros a Ha; apply HE in Ha; lia).
    reflexivity.
  - assert (ev x (A ++ ins_start A s v) d = v) as Ev.
    { rewrite ev_le; [apply ins_start_last|]. intros a Ha. apply in_app_or in Ha. destruct Ha as [Ha|Ha].
      - apply HA in Ha. lia.
      - apply ins_start_keys in Ha. subst a. simpl. lia. }
    rewrite app_assoc, ev_app, Ev.
    destruct (Z_lt_le_dec x e) as [Hx2|Hx2].
    + replace ((s <=? x) && (x <? e)) with true by lia.
      apply ev_gt. intros a Ha. apply ins_end_keys in Ha; [|apply HE; now left].
      destruct Ha as [[-> _]|[->|Ha]]; simpl; [lia| |].
      * specialize (HE E (or_introl eq_refl)). lia.
      * specialize (HE a (or_intror Ha)). lia.
    + replace ((s <=? x) && (x <? e)) with false by lia.
      rewrite app_assoc, ev_app.
      rewrite (ev_le x (A ++ M)).
      2:{ intros a Ha. apply in_app_or in Ha. destruct Ha as [Ha|Ha]; [apply HA in Ha|apply HM in Ha]; lia. }
      fold old. unfold ins_end.
      destruct (fst E =? e) eqn:E1.
      * destruct R as [|r R]; [specialize (Hlast eq_refl); lia|].
        destruct (veqb (snd E) v) eqn:E2.
        -- apply veqb_ok in E2. rewrite ev_cons with (a := E). replace (fst E <=? x) with true by lia. now rewrite E2.
        -- rewrite !(ev_cons x E). now replace (fst E <=? x) with true by lia.
      * destruct (veqb old v) eqn:E2.
        -- apply veqb_ok in E2. now rewrite E2.
        -- rewrite ev_cons with (a := (e, old)). simpl fst; simpl snd. now replace (e <=? x) with true by lia.
Qed.

Lemma ins_sorted A M E R s e v old :
  (forall b, In b A -> fst b < s) ->
  (forall b, In b (E :: R) -> e <= fst b) -> s < e ->
  sorted (A ++ M ++ E :: R) ->
  sorted (A ++ ins_start A s v ++ ins_end E R e v old).
Proof.
  intros HA HE Hse HS.
  apply sorted_app in HS. destruct HS as (SA & HS & _). apply sorted_app in HS. destruct HS as (_ & HS & _).
  rewrite !sorted_app.
  assert (forall b, In b (ins_end E R e v old) -> e <= fst b) as HK.
  { intros b Hb. apply ins_end_keys in Hb; [|apply HE; now left].
    destruct Hb as [[-> _]|[->|Hb]]; simpl; [lia| |]; apply HE; simpl; auto. }
  repeat split; auto.
  - unfold ins_start. destruct A as [|a A]; [|destruct (veqb _ v)]; simpl; intuition.
  - unfold ins_end. destruct (fst E =? e) eqn:E1.
    + destruct R as [|r R]; [assumption|]. destruct (veqb (snd E) v); [apply HS|assumption].
    + destruct (veqb old v); [assumption|]. rewrite sorted_cons. split; [|assumption].
      intros b Hb. simpl. specialize (HE E (or_introl eq_refl)) as HE0.
      destruct Hb as [<-|Hb]; [lia|]. destruct HS as [HS _]. specialize (HS b Hb). lia.
  - intros a b Ha Hb. apply ins_start_keys in Ha. subst a. apply HK in Hb. simpl. lia.
  - intros a b Ha Hb. apply HA in Ha. apply in_app_or in Hb. destruct Hb as [Hb|Hb].
    + apply ins_start_keys in Hb. subst b. simpl. lia.
    + apply HK in Hb. lia.
Qed.

Lemma snoc_inj {X : Type} (l1 l2 : list X) a b : l1 ++ [a] = l2 ++ [b] -> l1 = l2 /\ a = b.
Proof. apply app_inj_tail. Qed.

Lemma ins_end_last E R e v old Z0 r : E :: R = Z0 ++ [r] ->
  exists Y, ins_end E R e v old = Y ++ [r].
Proof.
  intros H. unfold ins_end. destruct (fst E =? e).
  - destruct R as [|r0 R]; [eauto|]. destruct (veqb (snd E) v); [|eauto].
    destruct Z0 as [|z Z0]; [discriminate|]. simpl in H. injection H as -> H. eauto.
  - destruct (veqb old v); [eauto|]. exists ((e, old) :: Z0). simpl. now rewrite H.
Qed.

Lemma suffix_last {X : Type} (A B Z0 : list X) r : A ++ B = Z0 ++ [r] -> B <> [] -> exists B0, B = B0 ++ [r].
Proof.
  intros H N. destruct (list_snoc B N) as (B0 & b & ->). rewrite app_assoc in H.
  apply snoc_inj in H. destruct H as [_ ->]. eauto.
Qed.

Lemma ins_wf mn mx vr A M E R s e v old :
  (forall b, In b A -> fst b < s) -> (forall b, In b M -> s <= fst b < e) ->
  (forall b, In b (E :: R) -> e <= fst b) -> s < e ->
  (A = [] -> exists w M', M = (s, w) :: M') ->
  wfL mn mx vr (A ++ M ++ E :: R) ->
  wfL mn mx vr (A ++ ins_start A s v ++ ins_end E R e v old).
Proof.
  intros HA HM HE Hse HA0 [HS (v0 & X & EX)].
  split; [eapply ins_sorted; eauto|].
  assert (exists B0, E :: R = B0 ++ [(mx, vr)]) as (B0 & EB).
  { apply (suffix_last (A ++ M) _ ((mn, v0) :: X)); [|congruence]. now rewrite <- app_assoc. }
  destruct (ins_end_last E R e v old _ _ EB) as (Y & ->).
  destruct A as [|a A].
  - destruct (HA0 eq_refl) as (w & M' & ->). simpl in EX. injection EX as -> _ _.
    simpl. exists v, Y. reflexivity.
  - simpl in EX. injection EX as -> _. simpl. exists v0, (A ++ ins_start ((mn, v0) :: A) s v ++ Y).
    now rewrite <- !app_assoc.
Qed.

(** canonical: no two neighbouring segments carry the same value *)
Definition canonL (L : list leaf) : Prop := adjp None (removelast L).

Lemma removelast_snoc {X : Type} (l : list X) a : removelast (l ++ [a]) = l.
Proof. apply removelast_last. Qed.

Lemma removelast_app2 {X : Type} (l1 l2 : list X) : l2 <> [] -> removelast (l1 ++ l2) = l1 ++ removelast l2.
Proof. apply removelast_app. Qed.

Lemma adjp_ins_start A s v : adjp None A -> adjp None (A ++ ins_start A s v).
Proof.
  intros H. apply adjp_app. split; auto. unfold ins_start.
  destruct A as [|a A]; [simpl; intuition congruence|].
  rewrite lasto_value with (d := v) by congruence.
  destruct (veqb (last_value (a :: A) v) v) eqn:E; simpl; auto.
  split; auto. apply veqb_neq in E. congruence.
Qed.

Lemma ins_canon A M E R s e v :
  (A = [] -> exists w M', M = (s, w) :: M') ->
  canonL (A ++ M ++ E :: R) ->
  canonL (A ++ ins_start A s v ++ ins_end E R e v (last_value M (last_value A v))).
Proof.
  intros HA0 HC. unfold canonL in *.
  set (old := last_value M (last_value A v)) in *.
  assert (lasto None (A ++ M) = Some old) as EO.
  { unfold old. rewrite last_value_AM with (s := s) (d := v) by assumption. apply lasto_value.
    destruct A; [destruct (HA0 eq_refl) as (?&?&->)|]; simpl; congruence. }
  rewrite app_assoc in HC. rewrite removelast_app2 in HC by congruence.
  rewrite app_assoc. rewrite removelast_app2.
  2:{ unfold ins_end. destruct (fst E =? e); [destruct R; [|destruct (veqb _ _)]|destruct (veqb _ _)]; congruence. }
  apply adjp_app in HC. destruct HC as [HC1 HC2]. rewrite EO in HC2.
  apply adjp_app in HC1. destruct HC1 as [HCA _].
  apply adjp_app. split; [now apply adjp_ins_start|].
  assert (lasto None (A ++ ins_start A s v) = Some v) as EL.
  { rewrite lasto_value with (d := v).
    - f_equal. apply ins_start_last.
    - unfold ins_start. destruct A; simpl; congruence. }
  rewrite EL. unfold ins_end.
  destruct (fst E =? e) eqn:E1.
  - destruct R as [|r R]; [simpl; auto|].
    change (removelast (E :: r :: R)) with (E :: removelast (r :: R)) in *.
    destruct HC2 as [H1 H2].
    destruct (veqb (snd E) v) eqn:E2.
    + apply veqb_ok in E2. now rewrite <- E2.
    + apply veqb_neq in E2. split; [congruence|assumption].
  - destruct (veqb old v) eqn:E2.
    + apply veqb_ok in E2. now rewrite <- E2.
    + change (removelast ((e, old) :: E :: R)) with ((e, old) :: removelast (E :: R)).
      split; [|assumption]. apply veqb_neq in E2. simpl. congruence.
Qed.

Lemma ins_unchanged A M E R s e v :
  ins_changed A M E R s e v = false ->
  A ++ ins_start A s v ++ ins_end E R e v (last_value M (last_value A v)) = A ++ M ++ E :: R.
Proof.
  unfold ins_changed. intros H. apply orb_false_iff in H. destruct H as [H1 H2].
  f_equal.
  assert (ins_start A s v = M) as ->.
  { unfold ins_start. destruct A as [|a A].
    - destruct M as [|[k w] M]; [discriminate|]. destruct (k =? s) eqn:E1; [|discriminate].
      apply orb_false_iff in H1. destruct H1 as [H1 H3].
      destruct M; [|discriminate]. apply negb_false_iff, veqb_ok in H1. subst. f_equal. f_equal. lia.
    - destruct (veqb (last_value (a :: A) v) v).
      + destruct M; [reflexivity|discriminate].
      + destruct M as [|[k w] M]; [discriminate|]. destruct (k =? s) eqn:E1; [|discriminate].
        apply orb_false_iff in H1. destruct H1 as [H1 H3].
        destruct M; [|discriminate]. apply negb_false_iff, veqb_ok in H1. subst. f_equal. f_equal. lia. }
  f_equal. unfold ins_end. destruct (fst E =? e).
  - destruct R; [reflexivity|]. now rewrite H2.
  - apply negb_false_iff in H2. now rewrite H2.
Qed.

Lemma ev_at (A Q : list leaf) x d :
  (forall b, In b A -> fst b <= x) -> (forall b, In b Q -> x < fst b) ->
  ev x (A ++ Q) d = last_value A d.
Proof.
  intros HA HQ. rewrite ev_app, (ev_gt x Q) by assumption. now apply ev_le.
Qed.

Lemma ins_changed_true A M E R s e v d :
  (forall b, In b A -> fst b < s) -> (forall b, In b M -> s <= fst b < e) ->
  (forall b, In b (E :: R) -> e <= fst b) -> s < e ->
  (A = [] -> exists w M', M = (s, w) :: M') ->
  sorted (A ++ M ++ E :: R) -> canonL (A ++ M ++ E :: R) ->
  ins_changed A M E R s e v = true ->
  exists x, s <= x < e /\ ev x (A ++ M ++ E :: R) d <> v.
Proof.
  intros HA HM HE Hse HA0 HS HC H.
  assert (ev (e - 1) (A ++ M ++ E :: R) d = last_value M (last_value A v)) as Hlast.
  { rewrite last_value_AM with (s := s) (d := d) by assumption.
    rewrite app_assoc. apply ev_at.
    - intros b Hb. apply in_app_or in Hb. destruct Hb as [Hb|Hb]; [apply HA in Hb|apply HM in Hb]; lia.
    - intros b Hb. apply HE in Hb. lia. }
  assert (forall k w M1 M2, M = M1 ++ (k, w) :: M2 -> ev k (A ++ M ++ E :: R) d = w) as HevM.
  { intros k w M1 M2 EM. subst M.
    replace (A ++ (M1 ++ (k, w) :: M2) ++ E :: R) with ((A ++ M1 ++ [(k, w)]) ++ (M2 ++ E :: R)).
    2:{ now rewrite <- !app_assoc. }
    replace (A ++ (M1 ++ (k, w) :: M2) ++ E :: R) with ((A ++ M1 ++ [(k, w)]) ++ (M2 ++ E :: R)) in HS.
    2:{ now rewrite <- !app_assoc. }
    rewrite ev_at.
    - rewrite app_assoc. apply last_value_app.
    - intros b Hb. apply sorted_app in HS. destruct HS as [HS _]. rewrite app_assoc in HS, Hb.
      apply sorted_app in HS. destruct HS as (_ & _ & HS). apply in_app_or in Hb. destruct Hb as [Hb|[<-|[]]]; [|simpl; lia].
      specialize (HS b (k, w) Hb (or_introl eq_refl)). simpl in HS. lia.
    - intros b Hb. apply sorted_app in HS. destruct HS as (_ & _ & HS).
      apply (HS (k, w)); [|assumption]. rewrite app_assoc. apply in_or_app. right. now left. }
  assert (forall k w M', M = (k, w) :: M' -> s <= k < e) as HMk.
  { intros k w M' ->. apply (HM (k, w)). now left. }
  assert (A <> [] -> (forall k w M', M = (k, w) :: M' -> s < k) ->
          ev s (A ++ M ++ E :: R) d = last_value A v) as HevA.
  { intros NA HK. rewrite ev_at.
    - now apply last_value_default.
    - intros b Hb. apply HA in Hb. lia.
    - intros b Hb. apply in_app_or in Hb. destruct Hb as [Hb|Hb].
      + destruct M as [|[k w] M]; [destruct Hb|]. specialize (HK k w M eq_refl).
        apply sorted_app in HS. destruct HS as (_ & HS & _). simpl in HS. destruct HS as [HS _].
        destruct Hb as [<-|Hb]; [assumption|].
        specialize (HS b (in_or_app _ _ _ (or_introl Hb))). simpl in HS. lia.
      + apply HE in Hb. lia. }
  unfold canonL in HC. rewrite app_assoc, removelast_app2 in HC by congruence.
  apply adjp_app in HC. destruct HC as [HC1 HC2].
  assert (lasto None (A ++ M) = Some (last_value M (last_value A v))) as EO.
  { rewrite last_value_AM with (s := s) (d := v) by assumption. apply lasto_value.
    destruct A; [destruct (HA0 eq_refl) as (?&?&->)|]; simpl; congruence. }
  rewrite EO in HC2.
  apply adjp_app in HC1. destruct HC1 as [HCA HCM].
  unfold ins_changed in H. apply orb_true_iff in H. destruct H as [H|H].
  - destruct A as [|a A].
    + destruct (HA0 eq_refl) as (w & M' & EM). rewrite EM in H. rewrite Z.eqb_refl in H.
      destruct (veqb w v) eqn:E1.
      * apply veqb_ok in E1. subst w. destruct M' as [|[k2 w2] M']; [discriminate|].
        exists k2. rewrite (HevM k2 w2 [(s, v)] M') by assumption. subst M.
        split; [apply (HM (k2, w2)); right; now left|].
        simpl in HCM. destruct HCM as (_ & HCM & _). congruence.
      * exists s. rewrite (HevM s w [] M') by assumption. apply veqb_neq in E1. split; [lia|assumption].
    + set (A1 := a :: A) in *. assert (A1 <> []) as NA by (unfold A1; congruence).
      rewrite lasto_value with (d := v) in HCM by assumption.
      destruct (veqb (last_value A1 v) v) eqn:E0.
      * destruct M as [|[k w] M']; [discriminate|]. exists k.
        rewrite (HevM k w [] M') by reflexivity. apply veqb_ok in E0. rewrite E0 in HCM.
        destruct HCM as [HCM _]. split; [eapply HMk; reflexivity|]. simpl in HCM. congruence.
      * apply veqb_neq in E0. destruct M as [|[k w] M'].
        -- exists s. rewrite HevA by (auto; congruence). split; [lia|assumption].
        -- destruct (k =? s) eqn:E1.
           ++ assert (k = s) by lia. subst k. destruct (veqb w v) eqn:E2.
              ** apply veqb_ok in E2. subst w. destruct M' as [|[k2 w2] M']; [discriminate|].
                 exists k2. rewrite (HevM k2 w2 [(s, v)] M') by reflexivity.
                 split; [apply (HM (k2, w2)); right; now left|].
                 simpl in HCM. destruct HCM as (_ & HCM & _). congruence.
              ** exists s. rewrite (HevM s w [] M') by reflexivity. apply veqb_neq in E2. split; [lia|assumption].
           ++ exists s. rewrite HevA; auto.
              ** split; [lia|assumption].
              ** intros k0 w0 M0 E4. injection E4 as <- <- <-. specialize (HMk k w M' eq_refl). lia.
  - exists (e - 1). rewrite Hlast. split; [lia|].
    destruct (fst E =? e).
    + destruct R as [|r R]; [discriminate|].
      change (removelast (E :: r :: R)) with (E :: removelast (r :: R)) in HC2.
      destruct HC2 as [HC2 _]. apply veqb_ok in H. congruence.
    + apply negb_true_iff, veqb_neq in H. assumption.
Qed.

End P.
