(** Proofs about the flat_segment_tree model, second part: the public insertions and shifts. *)
From Coq Require Import List ZArith Lia Bool ZifyBool ZifyNat.
From Verif Require Import Base FstModel FstProofs.
Import ListNotations.
Open Scope Z_scope.

Section P.
Context {V : Type}.
Variable veqb : V -> V -> bool.
Variable vnull : V.
Hypothesis veqb_ok : eqb_ok veqb.

Local Notation leaf := (Z * V)%type.
Local Notation fst_t := (@fst_t V).

Definition tree_ok (t : fst_t) : Prop :=
  valid_tree t = true -> exists pool, builder_build (length (leaves t)) pool (leaves t) = Ok (root_node t).

Definition wf (mn mx : Z) (d : V) (t : fst_t) : Prop :=
  wfL mn mx vnull (leaves t) /\ init_val t = d /\ tree_ok t.

Lemma wf_lt mn mx d t : wf mn mx d t -> mn < mx.
Proof. intros [H _]. eapply wfL_lt; eauto. Qed.

(** Effect of an insertion on the content. *)
Definition upd (f : Z -> V) (s e : Z) (v : V) : Z -> V :=
  fun x => if (s <=? x) && (x <? e) then v else f x.

Lemma fst_t_eq (a b : fst_t) :
  leaves a = leaves b -> init_val a = init_val b -> valid_tree a = valid_tree b ->
  root_node a = root_node b -> a = b.
Proof. destruct a, b; simpl; intros; subst; reflexivity. Qed.

Lemma left_right mn mx d t : wf mn mx d t ->
  exists vl, left_leaf t = Ok (mn, vl) /\ right_leaf t = Ok (mx, vnull).
Proof.
  intros [W _]. destruct (left_leaf_wf _ _ _ _ W) as (vl & E1). exists vl. split; [assumption|].
  eapply right_leaf_wf; eauto.
Qed.

(** What a successful insertion of [s,e) := v guarantees about the new tree. *)
Definition ins_post (mn mx : Z) (d : V) (t t' : fst_t) (ns : nat) (chg : bool) (s e : Z) (v : V) : Prop :=
  wf mn mx d t' /\
  (canonL (leaves t) -> canonL (leaves t')) /\
  (forall x, x < mx -> ev x (leaves t') d = upd (fun y => ev y (leaves t) d) s e v x) /\
  (chg = false -> t' = t) /\
  (canonL (leaves t) -> chg = true -> exists x, s <= x < e /\ ev x (leaves t) d <> v) /\
  (exists k k' w, nth_error (leaves t') ns = Some (k, v) /\ k <= s /\
     nth_error (leaves t') (S ns) = Some (k', w) /\ e <= k').

Lemma ins_idx_spec (A : list leaf) s v : (forall b, In b A -> fst b < s) ->
  exists k B, A ++ ins_start veqb A s v = B ++ [(k, v)] /\ ins_idx veqb A v = length B /\ k <= s.
Proof.
  intros HA. unfold ins_start, ins_idx. destruct A as [|a A].
  - exists s, []. simpl. repeat split; lia.
  - destruct (list_snoc (a :: A)) as (B & [k w] & E); [congruence|]. rewrite E.
    rewrite last_value_app. simpl snd. destruct (veqb w v) eqn:E1.
    + apply veqb_ok in E1. subst w. exists k, B. rewrite app_nil_r. repeat split.
      * rewrite app_length. simpl. lia.
      * assert (In (k, v) (a :: A)) as HI by (rewrite E; apply in_or_app; right; now left).
        apply HA in HI. simpl in HI. lia.
    + exists s, (B ++ [(k, w)]). repeat split. lia.
Qed.

Lemma insert_core mn mx d t s e v :
  wf mn mx d t -> mn <= s -> s < e -> e <= mx ->
  exists A M E R t',
    leaves t = A ++ M ++ E :: R /\ (forall b, In b A -> fst b < s) /\
    (forall b, In b (M ++ E :: R) -> s <= fst b) /\
    insert_to_pos veqb t (length A) s e v =
      Ok (t', ins_idx veqb A v, ins_changed veqb A M E R s e v) /\
    ins_post mn mx d t t' (ins_idx veqb A v) (ins_changed veqb A M E R s e v) s e v.
Proof.
  intros (W & WI & WT) Hs Hse He.
  destruct (split3 mn mx vnull (leaves t) s e W Hs Hse He) as (A & M & E & R & EL & HA & HM & HE & HA0).
  pose proof W as [HS HX].
  destruct (insert_to_pos_nf veqb t A M E R s e v EL HM (HE E (or_introl eq_refl)) Hse HA0 HS)
    as (t' & EI & EL' & EInit & ERoot & EValid).
  exists A, M, E, R, t'. split; [assumption|]. split; [assumption|].
  split.
  { intros b Hb. apply in_app_or in Hb. destruct Hb as [Hb|Hb]; [apply HM in Hb|apply HE in Hb]; lia. }
  split; [assumption|].
  assert (leaves t' = leaves t -> True) as _ by auto.
  rewrite EL in HS.
  assert (sorted (E :: R)) as HSE.
  { apply sorted_app in HS. destruct HS as (_ & HS & _). apply sorted_app in HS. tauto. }
  assert (wfL mn mx vnull (leaves t')) as W'.
  { rewrite EL'. apply ins_wf with (M := M); auto. now rewrite <- EL. }
  assert (ins_changed veqb A M E R s e v = false -> t' = t) as HU.
  { intros HC. apply fst_t_eq; auto.
    - rewrite EL', EL. now apply ins_unchanged.
    - now rewrite EValid, HC. }
  split; [|split; [|split; [|split; [|split]]]].
  - split; [assumption|]. split; [congruence|].
    intros HV. rewrite EValid in HV. destruct (ins_changed veqb A M E R s e v) eqn:EC; [discriminate|].
    rewrite HU by reflexivity. auto.
  - intros HC. rewrite EL'. eapply ins_canon; eauto. now rewrite <- EL.
  - intros x Hx. rewrite EL', EL. unfold upd. apply ins_ev; auto.
    intros ->. destruct HX as (v0 & X & EX). rewrite EL in EX.
    rewrite app_comm_cons, app_assoc in EX. apply app_inj_tail in EX. destruct EX as [_ ->]. simpl. lia.
  - exact HU.
  - intros HC Hchg. rewrite EL in *. eapply ins_changed_true; eauto.
  - destruct (ins_idx_spec A s v HA) as (k & B & EB & EI' & Hk).
    rewrite EL', app_assoc, EB, EI'.
    assert (exists q Q, ins_end veqb E R e v (last_value M (last_value A v)) = q :: Q) as (q & Q & EQ).
    { unfold ins_end. destruct (fst E =? e); [destruct R; [|destruct (veqb _ _)]|destruct (veqb _ _)]; eauto. }
    assert (e <= fst q) as Hq.
    { assert (In q (ins_end veqb E R e v (last_value M (last_value A v)))) as HI by (rewrite EQ; now left).
      apply ins_end_keys in HI; [|apply HE; now left].
      destruct HI as [[-> _]|[->|HI]]; simpl; [lia| |]; apply HE; simpl; auto. }
    rewrite EQ. destruct q as [k' w]. exists k, k', w. rewrite <- app_assoc. cbn [app].
    repeat split; auto.
    + apply nth_error_app_mid.
    + rewrite nth_error_app2 by lia. now replace (S (length B) - length B)%nat with 1%nat by lia.
Qed.

Lemma adjust_in mn mx s e : mn <= s -> s < e -> e <= mx -> adjust_segment_range mn mx s e = Some (s, e).
Proof.
  intros. unfold adjust_segment_range.
  replace (e <=? s) with false by lia. replace ((e <? mn) || (mx <=? s)) with false by lia.
  replace (s <? mn) with false by lia. now replace (mx <? e) with false by lia.
Qed.

(** Result of an insertion whatever the direction or hint. *)
Definition ins_result (mn mx : Z) (d : V) (t : fst_t) (s e : Z) (v : V) (r : res (fst_t * iter * bool)) : Prop :=
  exists t' it chg, r = Ok (t', it, chg) /\
    wf mn mx d t' /\
    (canonL (leaves t) -> canonL (leaves t')) /\
    (forall x, mn <= x < mx -> ev x (leaves t') d = upd (fun y => ev y (leaves t) d) s e v x) /\
    (chg = false -> t' = t) /\
    (canonL (leaves t) -> chg = true -> exists x, mn <= x < mx /\ s <= x < e /\ ev x (leaves t) d <> v) /\
    ((exists x, mn <= x < mx /\ s <= x < e) ->
      snd it = false /\ exists k k' w, nth_error (leaves t') (fst it) = Some (k, v) /\ k <= Z.max s mn /\
        nth_error (leaves t') (S (fst it)) = Some (k', w) /\ Z.min e mx <= k').

Lemma ins_result_noop mn mx d t s e v :
  wf mn mx d t -> (forall x, mn <= x < mx -> s <= x < e -> False) ->
  ins_result mn mx d t s e v (Ok (t, end_iter t, false)).
Proof.
  intros W H. exists t, (end_iter t), false. repeat split; try apply W; auto; try discriminate.
  - intros x Hx. unfold upd. destruct ((s <=? x) && (x <? e)) eqn:E; [|reflexivity].
    exfalso. apply (H x); lia.
  - destruct H0 as (x & H1 & H2). exfalso. eauto.
  - destruct H0 as (x & H1 & H2). exfalso. eauto.
Qed.

Lemma insert_front_hint_start mn mx d t s e v :
  wf mn mx d t -> mn <= s -> s < e -> e <= mx ->
  exists r t' ns chg, r = Ok (t', (ns, false), chg) /\ ins_post mn mx d t t' ns chg s e v /\
    (forall fwd, insert_segment_impl veqb t s e v fwd = r) /\
    (forall p k w, nth_error (leaves t) p = Some (k, w) -> k <= s ->
      insert_hint veqb t (Some p) s e v = r).
Proof.
  intros W Hs Hse He.
  destruct (insert_core mn mx d t s e v W Hs Hse He) as (A & M & E & R & t' & EL & HA & HB & EI & HP).
  destruct (left_right _ _ _ _ W) as (vl & E1 & E2).
  eexists _, t', _, _. split; [reflexivity|]. split; [exact HP|]. split.
  - intros fwd. unfold insert_segment_impl. rewrite E1, E2. cbn [bind]. rewrite adjust_in by assumption.
    assert ((if fwd then get_insertion_pos_leaf s (leaves t) 0
             else match get_insertion_pos_leaf_reverse s (leaves t) (right_idx t) with
                  | Some p => if (S p <? length (leaves t))%nat then Some (S p) else None
                  | None => Some O
                  end) = Some (length A)) as ->.
    { destruct fwd.
      - unfold get_insertion_pos_leaf. rewrite EL. simpl skipn. rewrite gip_split; auto. destruct M; simpl; congruence.
      - unfold right_idx. rewrite EL. rewrite gip_rev_split; auto.
        + destruct A as [|a A]; [reflexivity|].
          replace (S (length (a :: A) - 1)) with (length (a :: A)) by (simpl; lia).
          replace (length (a :: A) <? length ((a :: A) ++ M ++ E :: R))%nat with true; [reflexivity|].
          rewrite !app_length. simpl. lia.
        + destruct A; [destruct M|]; simpl; congruence. }
    rewrite EI. reflexivity.
  - intros p k w Ep Hk. unfold insert_hint. rewrite Ep. cbn [deref bind].
    replace (s <? k) with false by lia.
    rewrite E1, E2. cbn [bind]. rewrite adjust_in by assumption.
    assert (get_insertion_pos_leaf s (leaves t) p = Some (length A)) as ->.
    { unfold get_insertion_pos_leaf. rewrite EL.
      assert ((p <= length A)%nat) as Hp.
      { destruct (le_lt_dec p (length A)) as [|Hlt]; [assumption|exfalso].
        rewrite EL in Ep. destruct W as ((HS & _) & _). rewrite EL in HS.
        rewrite nth_error_app2 in Ep by lia.
        assert (exists q Q, M ++ E :: R = q :: Q) as (q & Q & EQ) by (destruct M; simpl; eauto).
        rewrite EQ in *. apply sorted_app in HS. destruct HS as (_ & HS & _).
        destruct (p - length A)%nat as [|m] eqn:Em; [lia|].
        simpl in Ep. apply nth_error_In in Ep. destruct HS as [HS _]. specialize (HS _ Ep).
        specialize (HB q (or_introl eq_refl)). simpl in HS. lia. }
      rewrite skipn_app. replace (p - length A)%nat with O by lia. simpl (skipn 0 _).
      rewrite gip_split; auto.
      - f_equal. rewrite skipn_length. lia.
      - intros b Hb. apply HA. rewrite <- (firstn_skipn p A). apply in_or_app. now right.
      - destruct M; simpl; congruence. }
    cbn [deref bind]. rewrite EI. reflexivity.
Qed.

(** All three ways to insert agree, and have the documented effect, unless the segment
    ends exactly at the lower bound. *)
Lemma insert_all mn mx d t s e v :
  wf mn mx d t -> ~ (s < mn /\ e = mn) ->
  exists r, ins_result mn mx d t s e v r /\
    insert_front veqb t s e v = r /\ insert_back veqb t s e v = r /\
    insert_hint veqb t None s e v = r /\
    (forall p, (p < length (leaves t))%nat -> insert_hint veqb t (Some p) s e v = r).
Proof.
  intros W HN. destruct (left_right _ _ _ _ W) as (vl & E1 & E2).
  pose proof (wf_lt _ _ _ _ W) as Hlt.
  destruct (adjust_segment_range mn mx s e) as [[s' e']|] eqn:EA.
  - assert (s' = Z.max s mn /\ e' = Z.min e mx /\ s < e /\ mn <= e /\ s < mx) as (-> & -> & Hse & Hne & Hsx).
    { unfold adjust_segment_range in EA. destruct (e <=? s) eqn:H1; [discriminate|].
      destruct ((e <? mn) || (mx <=? s)) eqn:H2; [discriminate|].
      injection EA as <- <-. destruct (s <? mn) eqn:H3, (mx <? e) eqn:H4; lia. }
    destruct (insert_front_hint_start mn mx d t (Z.max s mn) (Z.min e mx) v W) as (r & t' & ns & chg & Er & HP & HF & HH); try lia.
    assert (forall fwd, insert_segment_impl veqb t s e v fwd = r) as HF'.
    { intros fwd. rewrite <- (HF fwd). unfold insert_segment_impl. rewrite E1, E2. cbn [bind].
      rewrite EA. rewrite adjust_in by lia. reflexivity. }
    exists r. split; [|split; [|split; [|split]]].
    + subst r. destruct HP as (P1 & P2 & P3 & P4 & P5 & P6).
      exists t', (ns, false), chg. repeat split; try apply P1; auto.
      * intros x Hx. rewrite P3 by lia. unfold upd.
        now replace ((Z.max s mn <=? x) && (x <? Z.min e mx)) with ((s <=? x) && (x <? e)) by lia.
      * intros HC Hchg. destruct (P5 HC Hchg) as (x & Hx & Hne'). exists x. repeat split; auto; lia.
    + apply HF'.
    + apply HF'.
    + apply HF'.
    + intros p Hp. destruct (nth_error (leaves t) p) as [[k w]|] eqn:Ep; [|apply nth_error_None in Ep; lia].
      unfold insert_hint. rewrite Ep. cbn [deref bind]. destruct (s <? k) eqn:Ek; [apply HF'|].
      rewrite E1, E2. cbn [bind]. rewrite EA.
      destruct W as (W & _). pose proof (wfL_bounds _ _ _ _ _ W (nth_error_In _ _ Ep)) as Hb. simpl in Hb.
      rewrite <- (HH p k w Ep) by lia. unfold insert_hint. rewrite Ep. cbn [deref bind].
      replace (Z.max s mn <? k) with false by lia. rewrite E1, E2. cbn [bind]. now rewrite adjust_in by lia.
  - exists (Ok (t, end_iter t, false)). 
    assert (forall fwd, insert_segment_impl veqb t s e v fwd = Ok (t, end_iter t, false)) as HF'.
    { intros fwd. unfold insert_segment_impl. rewrite E1, E2. cbn [bind]. now rewrite EA. }
    split; [|split; [|split; [|split]]]; try apply HF'.
    + apply ins_result_noop; auto. intros x H1 H2. unfold adjust_segment_range in EA.
      destruct (e <=? s) eqn:H3; [lia|]. destruct ((e <? mn) || (mx <=? s)) eqn:H4; [lia|discriminate].
    + intros p Hp. destruct (nth_error (leaves t) p) as [[k w]|] eqn:Ep; [|apply nth_error_None in Ep; lia].
      unfold insert_hint. rewrite Ep. cbn [deref bind]. destruct (s <? k) eqn:Ek; [apply HF'|].
      rewrite E1, E2. cbn [bind]. now rewrite EA.
Qed.

(** The excluded case is undefined behaviour. *)
Lemma insert_bad mn mx d t s v fwd :
  wf mn mx d t -> s < mn -> insert_segment_impl veqb t s mn v fwd = Undef.
Proof.
  intros W Hs. destruct (left_right _ _ _ _ W) as (vl & E1 & E2).
  pose proof (wf_lt _ _ _ _ W) as Hlt.
  unfold insert_segment_impl. rewrite E1, E2. cbn [bind].
  unfold adjust_segment_range. replace (mn <=? s) with false by lia.
  replace ((mn <? mn) || (mx <=? s)) with false by lia.
  replace (s <? mn) with true by lia. replace (mx <? mn) with false by lia.
  destruct W as ([HS (v0 & X & EX)] & _).
  assert ((if fwd then get_insertion_pos_leaf mn (leaves t) 0
             else match get_insertion_pos_leaf_reverse mn (leaves t) (right_idx t) with
                  | Some p => if (S p <? length (leaves t))%nat then Some (S p) else None
                  | None => Some O
                  end) = Some O) as ->.
  { assert (forall b, In b (leaves t) -> mn <= fst b) as HB.
    { intros b Hb. rewrite EX in HS, Hb. destruct Hb as [<-|Hb]; [simpl; lia|].
      destruct HS as [HS _]. specialize (HS b Hb). simpl in HS. lia. }
    destruct fwd.
    - unfold get_insertion_pos_leaf. simpl skipn.
      pose proof (gip_split mn [] (leaves t) 0) as G. simpl app in G.
      rewrite G; auto; [simpl; tauto|]. rewrite EX; congruence.
    - unfold right_idx. pose proof (gip_rev_split mn [] (leaves t)) as G. simpl app in G.
      rewrite G; auto; [simpl; tauto|]. rewrite EX; congruence. }
  unfold insert_to_pos, insert_start. unfold get_insertion_pos_leaf. rewrite EX. simpl.
  rewrite Z.leb_refl. simpl. rewrite Z.eqb_refl. simpl. reflexivity.
Qed.

Lemma insert_hint_bad mn mx d t s v p :
  wf mn mx d t -> s < mn -> insert_hint veqb t p s mn v = Undef.
Proof.
  intros W Hs. unfold insert_hint. destruct p as [p|]; [|eapply insert_bad; eauto].
  destruct (nth_error (leaves t) p) as [[k w]|] eqn:Ep; [|reflexivity]. cbn [deref bind].
  destruct W as (W & W').
  pose proof (wfL_bounds _ _ _ _ _ W (nth_error_In _ _ Ep)) as Hb. simpl in Hb.
  replace (s <? k) with true by lia. eapply insert_bad; [split; eauto|assumption].
Qed.

(** ** shift_left *)

Lemma ev_shift x n (l : list leaf) (d : V) : ev x (shift_keys n l) d = ev (x - n) l d.
Proof.
  revert d; induction l as [|[k v] t IH]; intros d; [reflexivity|].
  simpl shift_keys. rewrite !ev_cons. simpl fst; simpl snd.
  replace (k + n <=? x) with (k <=? x - n) by lia. apply IH.
Qed.

Lemma in_shift n (l : list leaf) b : In b (shift_keys n l) -> exists a, In a l /\ fst b = fst a + n /\ snd b = snd a.
Proof.
  unfold shift_keys. rewrite in_map_iff. intros (a & <- & Ha). exists a. auto.
Qed.

Lemma sorted_shift n (l : list leaf) : sorted l -> sorted (shift_keys n l).
Proof.
  induction l as [|[k v] t IH]; simpl; auto. intros [H1 H2]. split; auto.
  intros b Hb. apply in_shift in Hb. destruct Hb as (a & Ha & -> & _). specialize (H1 a Ha). simpl in *. lia.
Qed.

Lemma adjp_shift (o : option V) n l : adjp o (shift_keys n l) <-> adjp o l.
Proof.
  revert o; induction l as [|[k v] t IH]; intros o; simpl; [tauto|]. now rewrite IH.
Qed.

Lemma lasto_shift (o : option V) n l : lasto o (shift_keys n l) = lasto o l.
Proof. revert o; induction l as [|[k v] t IH]; intros o; simpl; auto. Qed.

Definition app_seg (X : list leaf) (k : Z) (d : V) : list leaf :=
  if fst (last X (0, d)) =? k then removelast X ++ [(k, d)]
  else if veqb (last_value X d) d then X else X ++ [(k, d)].

Lemma append_nf (t : fst_t) X R k : leaves t = X ++ [R] -> X <> [] ->
  exists t', append_new_segment veqb t k = Ok t' /\
    leaves t' = app_seg X k (init_val t) ++ [R] /\ init_val t' = init_val t /\
    root_node t' = root_node t /\
    (valid_tree t' = true -> valid_tree t = true /\ map fst (leaves t') = map fst (leaves t)).
Proof.
  intros E NX. destruct (list_snoc X NX) as (X0 & [kq vq] & ->).
  unfold append_new_segment. destruct (right_leaf_app t _ _ E) as [_ ->].
  replace (length (X0 ++ [(kq, vq)])) with (S (length X0)) by (rewrite app_length; simpl; lia).
  rewrite E. rewrite <- app_assoc. simpl app. rewrite nth_error_app_mid. cbn [deref bind].
  unfold app_seg. rewrite last_last, last_value_app, removelast_last. simpl fst; simpl snd.
  destruct (kq =? k) eqn:E1.
  - eexists; split; [reflexivity|]. cbn [leaves init_val root_node valid_tree].
    assert (kq = k) by lia. subst kq.
    rewrite set_nth_app. rewrite <- app_assoc. repeat split; auto.
    rewrite !map_app. reflexivity.
  - destruct (veqb vq (init_val t)) eqn:E2.
    + exists t. repeat split; auto. now rewrite E, <- app_assoc.
    + eexists; split; [reflexivity|]. cbn [leaves init_val root_node valid_tree]. repeat split; auto; try discriminate.
      unfold insert_at.
      replace (X0 ++ [(kq, vq); R]) with ((X0 ++ [(kq, vq)]) ++ [R]) by (now rewrite <- app_assoc).
      replace (S (length X0)) with (length (X0 ++ [(kq, vq)])) by (rewrite app_length; simpl; lia).
      rewrite firstn_app_exact, skipn_app_exact. rewrite <- !app_assoc. reflexivity.
Qed.

Lemma app_seg_ev X k d x d0 : X <> [] -> sorted X ->
  (forall b, In b X -> fst b <= k) ->
  ev x (app_seg X k d) d0 = if k <=? x then d else ev x X d0.
Proof.
  intros NX HS HK. destruct (list_snoc X NX) as (X0 & [kq vq] & ->).
  unfold app_seg. rewrite last_last, last_value_app, removelast_last. simpl fst; simpl snd.
  destruct (kq =? k) eqn:E1.
  - rewrite !ev_app, !ev_cons, !ev_nil. simpl fst; simpl snd.
    assert (kq = k) by lia. subst kq. destruct (k <=? x) eqn:E2; reflexivity.
  - destruct (veqb vq d) eqn:E2.
    + apply veqb_ok in E2. subst vq. destruct (k <=? x) eqn:E3; [|reflexivity].
      rewrite ev_le; [apply last_value_app|]. intros a Ha. apply HK in Ha. lia.
    + rewrite (ev_app x (X0 ++ _)), ev_cons, ev_nil. simpl fst; simpl snd. reflexivity.
Qed.

Lemma app_seg_sorted X k d : X <> [] -> sorted X ->
  (forall b, In b X -> fst b <= k) -> sorted (app_seg X k d).
Proof.
  intros NX HS HK. destruct (list_snoc X NX) as (X0 & [kq vq] & ->).
  unfold app_seg. rewrite last_last, last_value_app, removelast_last. simpl fst; simpl snd.
  destruct (kq =? k) eqn:E1.
  - assert (kq = k) by lia. subst kq. apply sorted_app in HS. destruct HS as (H1 & H2 & H3).
    apply sorted_app. split; [assumption|]. split; [simpl; tauto|].
    intros a b Ha [<-|[]]. apply (H3 a (k, vq)); simpl; auto.
  - destruct (veqb vq d); [assumption|]. apply sorted_app. split; [assumption|]. split; [simpl; tauto|].
    intros a b Ha [<-|[]]. simpl. apply sorted_app in HS. destruct HS as (H1 & H2 & H3).
    apply in_app_or in Ha. assert (kq <= k) by (apply (HK (kq, vq)); apply in_or_app; right; now left).
    destruct Ha as [Ha|[<-|[]]]; simpl; [|lia]. specialize (H3 a (kq, vq) Ha (or_introl eq_refl)). simpl in H3. lia.
Qed.

Lemma app_seg_keys X k d b : X <> [] -> In b (app_seg X k d) -> fst b = k \/ In b X.
Proof.
  intros NX. destruct (list_snoc X NX) as (X0 & [kq vq] & ->).
  unfold app_seg. rewrite last_last, last_value_app, removelast_last. simpl fst; simpl snd.
  destruct (kq =? k) eqn:E1; [|destruct (veqb vq d)]; rewrite ?in_app_iff; simpl; intuition; subst; auto.
Qed.

Lemma app_seg_first X k d a X' : X = a :: X' -> exists w X'', app_seg X k d = (fst a, w) :: X''.
Proof.
  intros ->. destruct (list_snoc (a :: X')) as (X0 & [kq vq] & E); [congruence|].
  unfold app_seg. rewrite E. rewrite last_last, last_value_app, removelast_last. simpl fst; simpl snd.
  destruct a as [ka va]. destruct (kq =? k) eqn:E1.
  - destruct X0 as [|y X0]; simpl in E; injection E as -> ->.
    + simpl. exists d, []. f_equal. f_equal. lia.
    + destruct y; simpl. eauto.
  - destruct (veqb vq d); rewrite <- E; simpl; eauto.
Qed.

Lemma app_seg_canon X k d : X <> [] -> adjp None X ->
  (fst (last X (0, d)) = k -> lasto None (removelast X) <> Some d) -> adjp None (app_seg X k d).
Proof.
  intros NX HC HK. unfold app_seg.
  destruct (fst (last X (0, d)) =? k) eqn:E1.
  - apply adjp_app. split.
    + destruct (list_snoc X NX) as (X0 & q & ->). rewrite removelast_last. apply adjp_app in HC. tauto.
    + simpl. split; auto. apply HK. lia.
  - destruct (veqb (last_value X d) d) eqn:E2; [assumption|].
    apply adjp_app. split; [assumption|]. rewrite lasto_value with (d := d) by assumption.
    apply veqb_neq in E2; [|assumption]. simpl. split; auto. congruence.
Qed.

(** Normal form of shift_left: A nodes below s, D nodes in [s,e], K nodes above e. *)
Lemma drop_upto_split e (D K : list leaf) lv :
  (forall b, In b D -> fst b <= e) -> (forall b, In b K -> e < fst b) ->
  drop_upto e (D ++ K) lv = (K, last_value D lv).
Proof.
  revert lv; induction D as [|[k v] D IH]; intros lv HD HK; simpl.
  - destruct K as [|[k v] K]; [reflexivity|]. simpl. specialize (HK (k, v) (or_introl eq_refl)). simpl in HK.
    now replace (k <=? e) with false by lia.
  - pose proof (HD (k, v) (or_introl eq_refl)) as H0. simpl in H0. replace (k <=? e) with true by lia.
    rewrite IH; auto. + now rewrite last_value_cons. + intros; apply HD; now right.
Qed.

Definition sl_start (A D : list leaf) (s : Z) (d : V) : list leaf :=
  match D with
  | [] => []
  | _ => match A with
         | [] => [(s, last_value D d)]
         | _ => if veqb (last_value A d) (last_value D d) then [] else [(s, last_value D d)]
         end
  end.

Definition sl_list (A D K : list leaf) (s e : Z) (d : V) : list leaf :=
  A ++ sl_start A D s d ++ shift_keys (- (e - s)) K.

Lemma shift_left_nf mn mx d t s e A D K :
  wf mn mx d t -> mn <= s -> s < e -> e <= mx ->
  leaves t = A ++ D ++ K ++ [(mx, vnull)] ->
  (forall b, In b A -> fst b < s) -> (forall b, In b D -> s <= fst b <= e) ->
  (forall b, In b K -> e < fst b) -> (A = [] -> D <> []) -> (s = mn -> A = []) ->
  exists t', shift_left veqb t s e = Ok t' /\
    leaves t' = app_seg (sl_list A D K s e d) (mx - (e - s)) d ++ [(mx, vnull)] /\
    init_val t' = d /\ root_node t' = root_node t /\
    (valid_tree t' = true -> valid_tree t = true /\ map fst (leaves t') = map fst (leaves t)).
Proof.
  intros W Hs Hse He EL HA HD HK HAD HsA.
  destruct (left_right _ _ _ _ W) as (vl & E1 & E2).
  unfold shift_left. replace (e <=? s) with false by lia. rewrite E1, E2. cbn [bind].
  replace ((s <? mn) || (e <? mn)) with false by lia.
  replace ((mx <? s) || (mx <? e)) with false by lia.
  destruct W as ((HS & v0 & X & EX) & WI & _).
  assert ((if mn =? s then Some O else get_insertion_pos_leaf s (leaves t) 1) = Some (length A)) as ->.
  { destruct A as [|a A].
    - destruct D as [|dd D]; [now specialize (HAD eq_refl)|].
      rewrite EX in EL. simpl in EL. injection EL as <- _.
      specialize (HD (mn, v0) (or_introl eq_refl)). simpl in HD. now replace (mn =? s) with true by lia.
    - destruct (mn =? s) eqn:Em; [assert (s = mn) as Em2 by lia; specialize (HsA Em2); discriminate|].
      unfold get_insertion_pos_leaf. rewrite EL. simpl skipn. rewrite gip_split.
      + reflexivity.
      + intros b Hb. apply HA. now right.
      + intros b Hb. apply in_app_or in Hb. destruct Hb as [Hb|Hb]; [apply HD in Hb; lia|].
        apply in_app_or in Hb. destruct Hb as [Hb|[<-|[]]]; [apply HK in Hb; lia|simpl; lia].
      + destruct D, K; simpl; congruence. }
  assert (leaves t = (A ++ D ++ K) ++ [(mx, vnull)]) as ELr by (rewrite EL; now rewrite <- !app_assoc).
  destruct (right_leaf_app t _ _ ELr) as [_ ER]. rewrite ER.
  assert (forall r, sl_list A D K s e d <> [] ->
    exists t', append_new_segment veqb (mkFst (sl_list A D K s e d ++ [(mx, vnull)]) (init_val t) false r) (mx - (e - s)) = Ok t' /\
    leaves t' = app_seg (sl_list A D K s e d) (mx - (e - s)) d ++ [(mx, vnull)] /\
    init_val t' = d /\ root_node t' = r /\ valid_tree t' = false) as Happ.
  { intros r NE.
    destruct (append_nf (mkFst (sl_list A D K s e d ++ [(mx, vnull)]) (init_val t) false r) _ _ (mx - (e - s)) eq_refl NE)
      as (t' & F1 & F2 & F3 & F4 & F5).
    exists t'. split; [exact F1|]. cbn [init_val] in *. rewrite WI in *. repeat split; auto.
    destruct (valid_tree t') eqn:EV; auto. destruct (F5 eq_refl) as [F6 _]. cbn [valid_tree] in *. congruence. }
  assert (D ++ K <> [] -> (length A =? length (A ++ D ++ K))%nat = false) as Hneq.
  { intros N. rewrite app_length. destruct (D ++ K); [congruence|]. simpl. apply Nat.eqb_neq. lia. }
  assert (length (leaves t) = S (length (A ++ D ++ K))) as ELen by (rewrite ELr, app_length; simpl; lia).
  destruct D as [|[kp vp] D].
  - assert (A <> []) as NA by (intros E; now specialize (HAD E)).
    destruct K as [|[kp vp] K].
    + (* nothing to remove and nothing to move *)
      simpl app in *. rewrite app_nil_r. rewrite Nat.eqb_refl.
      destruct (append_nf t A (mx, vnull) (mx - (e - s)) EL NA) as (t' & F1 & F2 & F3 & F4 & F5).
      exists t'. unfold sl_list. simpl. rewrite app_nil_r. rewrite WI in *.
      destruct (mx <=? e) eqn:Ee.
      * replace (mx - (e - s)) with s in * by lia. repeat split; auto; apply F5; auto.
      * repeat split; auto; apply F5; auto.
    + (* only moves *)
      simpl app in *. rewrite Hneq by congruence.
      rewrite EL, nth_error_app_mid. cbn [deref bind].
      pose proof (HK (kp, vp) (or_introl eq_refl)) as Hkp. simpl in Hkp. replace (e <? kp) with true by lia.
      destruct (Happ (root_node t)) as (t' & F1 & F2 & F3 & F4 & F5).
      { unfold sl_list. destruct A; simpl; congruence. }
      exists t'. split.
      * rewrite <- F1. f_equal. unfold sl_list, shift_leaf_key_left. f_equal.
        rewrite firstn_app_exact, skipn_app_exact.
        assert (length (A ++ (kp, vp) :: K ++ [(mx, vnull)]) = S (length (A ++ (kp, vp) :: K))) as -> by (rewrite !app_length; simpl; rewrite app_length; simpl; lia).
        replace (S (length (A ++ (kp, vp) :: K)) - 1 - length A)%nat with (length ((kp, vp) :: K)) by (rewrite app_length; simpl; lia).
        replace (S (length (A ++ (kp, vp) :: K)) - 1)%nat with (length (A ++ (kp, vp) :: K)) by lia.
        rewrite app_comm_cons. rewrite firstn_app_exact. rewrite app_assoc with (m := (kp, vp) :: K).
        rewrite skipn_app_exact. simpl (sl_start _ _ _ _). rewrite <- app_assoc. reflexivity.
      * rewrite F5. repeat split; auto; discriminate.
  - (* nodes inside the removed range *)
    rewrite Hneq by (simpl; congruence).
    rewrite EL. simpl app. rewrite nth_error_app_mid. cbn [deref bind].
    pose proof (HD (kp, vp) (or_introl eq_refl)) as Hkp. simpl in Hkp. replace (e <? kp) with false by lia.
    rewrite firstn_app_exact.
    assert (skipn (S (length A)) (A ++ (kp, vp) :: D ++ K ++ [(mx, vnull)]) = (D ++ K) ++ [(mx, vnull)]) as ->.
    { replace (A ++ (kp, vp) :: D ++ K ++ [(mx, vnull)]) with ((A ++ [(kp, vp)]) ++ (D ++ K) ++ [(mx, vnull)]) by (now rewrite <- !app_assoc).
      replace (S (length A)) with (length (A ++ [(kp, vp)])) by (rewrite app_length; simpl; lia).
      apply skipn_app_exact. }
    replace (length (A ++ (kp, vp) :: D ++ K) - S (length A))%nat with (length (D ++ K)) by (rewrite !app_length; simpl; rewrite app_length; lia).
    rewrite firstn_app_exact.
    rewrite drop_upto_split; [|intros b Hb; apply HD; now right|assumption].
    destruct (Happ (root_node t)) as (t' & F1 & F2 & F3 & F4 & F5).
    { unfold sl_list. destruct A; simpl; congruence. }
    exists t'. split.
    + rewrite <- F1. f_equal. f_equal. unfold sl_list, sl_start. rewrite <- !app_assoc. f_equal.
      rewrite last_value_cons. simpl snd. destruct A as [|a A]; [reflexivity|].
      now rewrite last_value_default with (d' := d) by congruence.
    + rewrite F5. repeat split; auto; discriminate.
Qed.

Lemma build_level0_keys (L L' : list leaf) i : map fst L = map fst L' -> build_level0 L i = build_level0 L' i.
Proof.
  assert (forall n (L L' : list leaf) i, (length L <= n)%nat -> map fst L = map fst L' -> build_level0 L i = build_level0 L' i) as G.
  { induction n as [|n IH]; intros M M' j Hn HE.
    - destruct M; [|simpl in Hn; lia]. destruct M'; [reflexivity|discriminate].
    - destruct M as [|[k1 v1] [|[k2 v2] M]]; destruct M' as [|[k1' v1'] [|[k2' v2'] M']]; simpl in *; try discriminate; auto.
      + congruence.
      + injection HE as -> -> HE. rewrite (IH M M') by (auto; lia). f_equal. f_equal.
        destruct M as [|[k3 v3] M]; destruct M' as [|[k3' v3'] M']; simpl in HE; try discriminate; auto. congruence. }
  intros. eapply G; eauto.
Qed.

Lemma tree_ok_keys (t t' : fst_t) : tree_ok t -> root_node t' = root_node t ->
  (valid_tree t' = true -> valid_tree t = true /\ map fst (leaves t') = map fst (leaves t)) -> tree_ok t'.
Proof.
  intros HT HR HV Hv. destruct (HV Hv) as [H1 H2]. destruct (HT H1) as (pool & HB). exists pool.
  rewrite HR, <- HB. unfold builder_build.
  assert (length (leaves t') = length (leaves t)) as -> by (rewrite <- !(map_length fst); now rewrite H2).
  now rewrite (build_level0_keys _ _ _ H2).
Qed.

Lemma sl_split mn mx d t s e :
  wf mn mx d t -> mn <= s -> s < e -> e <= mx ->
  exists A D K, leaves t = A ++ D ++ K ++ [(mx, vnull)] /\
  (forall b, In b A -> fst b < s) /\ (forall b, In b D -> s <= fst b <= e) /\
  (forall b, In b K -> e < fst b) /\ (A = [] -> D <> []) /\ (s = mn -> A = []) /\
  (forall b, In b (A ++ D ++ K) -> mn <= fst b < mx) /\ sorted (A ++ D ++ K) /\
  (exists w Y, A ++ D ++ K = (mn, w) :: Y).
Proof.
  intros (W & _) Hs Hse He. pose proof W as (HS & v0 & X & EX).
  rewrite app_comm_cons in EX.
  assert (forall b, In b ((mn, v0) :: X) -> mn <= fst b < mx) as HB.
  { intros b Hb. rewrite EX in HS. apply sorted_app in HS. destruct HS as (_ & _ & HS).
    specialize (HS b (mx, vnull) Hb (or_introl eq_refl)). simpl in HS.
    assert (In b (leaves t)) as HI by (rewrite EX; apply in_or_app; now left).
    pose proof (wfL_bounds _ _ _ _ _ W HI). lia. }
  rewrite EX in HS. apply sorted_app in HS. destruct HS as (HS & _ & _).
  destruct (sorted_split s _ HS) as (A & B & EAB & HA & HBs).
  pose proof HS as HS'. rewrite EAB in HS'. apply sorted_app in HS'. destruct HS' as (_ & HSB & _).
  destruct (sorted_split (e + 1) _ HSB) as (D & K & EDK & HD & HK). subst B.
  exists A, D, K. rewrite <- EAB.
  assert (A = [] -> D <> []) as HAD.
  { intros -> ->. simpl in EAB. specialize (HK (mn, v0)). rewrite <- EAB in HK. specialize (HK (or_introl eq_refl)). simpl in HK. lia. }
  repeat split; auto.
  - rewrite EX, EAB. now rewrite <- !app_assoc.
  - apply HBs, in_or_app. now left.
  - apply HD in H. lia.
  - intros b Hb. apply HK in Hb. lia.
  - intros ->. destruct A as [|a A]; [reflexivity|]. simpl in EAB. injection EAB as <- _.
    specialize (HA (mn, v0) (or_introl eq_refl)). simpl in HA. lia.
  - apply HB in H. tauto.
  - apply HB in H. tauto.
  - apply HS.
  - apply HS.
  - eauto.
Qed.

(** Content after removing [s,e) and filling up at the end with the default. *)
Definition spec_shl (mx : Z) (d : V) (f : Z -> V) (s e : Z) : Z -> V :=
  fun x => if x <? s then f x else if x <? mx - (e - s) then f (x + (e - s)) else d.

(** The exact circumstances in which shift_left leaves two neighbouring segments with
    equal values behind. *)
Definition shl_bad (mn mx : Z) (d : V) (f : Z -> V) (s e : Z) : Prop :=
  mn < s /\ e = mx /\ f (s - 1) = d /\ f (mx - 1) <> d.

Lemma sl_start_keys A D s d b : In b (sl_start A D s d) -> b = (s, last_value D d).
Proof.
  unfold sl_start. destruct D as [|x D]; [simpl; tauto|]. destruct A as [|a A]; [|destruct (veqb _ _)]; simpl; intuition.
Qed.

Lemma sl_start_last A D s d d0 : (A = [] -> D <> []) ->
  last_value (A ++ sl_start A D s d) d0 = last_value (A ++ D) d0.
Proof.
  intros H. rewrite !last_value_app2. unfold sl_start. destruct D as [|x D]; [reflexivity|].
  set (D' := x :: D). assert (D' <> []) as ND by (unfold D'; congruence).
  destruct A as [|a A].
  - rewrite (last_value_cons (s, _)), last_value_nil. simpl snd. now apply last_value_default.
  - destruct (veqb _ _) eqn:E.
    + apply veqb_ok in E. rewrite last_value_nil.
      rewrite last_value_default with (d' := d) by congruence. rewrite E. now apply last_value_default.
    + rewrite (last_value_cons (s, _)), last_value_nil. simpl snd. now apply last_value_default.
Qed.

Lemma shift_left_spec mn mx d t s e :
  wf mn mx d t -> mn <= s -> s < e -> e <= mx ->
  exists t', shift_left veqb t s e = Ok t' /\ wf mn mx d t' /\
    (forall x, mn <= x < mx -> ev x (leaves t') d = spec_shl mx d (fun y => ev y (leaves t) d) s e x) /\
    (canonL (leaves t) -> (canonL (leaves t') <-> ~ shl_bad mn mx d (fun y => ev y (leaves t) d) s e)).
Proof.
  intros W Hs Hse He.
  destruct (sl_split mn mx d t s e W Hs Hse He) as (A & D & K & EL & HA & HD & HK & HAD & HsA & HB & HS & w & Y & EY).
  destruct (shift_left_nf mn mx d t s e A D K W Hs Hse He EL HA HD HK HAD HsA) as (t' & E1 & E2 & E3 & E4 & E5).
  exists t'. split; [assumption|].
  set (n := e - s) in *. set (X := sl_list A D K s e d) in *.
  apply sorted_app in HS. destruct HS as (HSA & HSDK & HSADK).
  apply sorted_app in HSDK. destruct HSDK as (HSD & HSK & HSDK).
  assert (forall b, In b A -> mn <= fst b < mx) as HBA by (intros b Hb; apply HB, in_or_app; auto).
  assert (forall b, In b K -> mn <= fst b < mx) as HBK by (intros b Hb; apply HB, in_or_app; right; apply in_or_app; auto).
  assert (forall b, In b (shift_keys (- n) K) -> s < fst b < mx - n) as HKs.
  { intros b Hb. apply in_shift in Hb. destruct Hb as (a & Ha & -> & _). specialize (HK a Ha). specialize (HBK a Ha). lia. }
  assert (exists w Y, X = (mn, w) :: Y) as (w' & Y' & EX').
  { unfold X, sl_list. destruct A as [|a A].
    - destruct D as [|dd D]; [now specialize (HAD eq_refl)|]. simpl in EY. injection EY as -> _.
      specialize (HD (mn, w) (or_introl eq_refl)). simpl in HD. simpl. assert (s = mn) by lia. subst s. eauto.
    - simpl in EY. injection EY as -> _. simpl. eauto. }
  assert (X <> []) as NX by congruence.
  assert (forall b, In b X -> fst b <= mx - n) as HXk.
  { intros b Hb. unfold X, sl_list in Hb. apply in_app_or in Hb. destruct Hb as [Hb|Hb]; [apply HA in Hb; lia|].
    apply in_app_or in Hb. destruct Hb as [Hb|Hb]; [apply sl_start_keys in Hb; subst b; simpl; lia|].
    apply HKs in Hb. lia. }
  assert (sorted X) as HSX.
  { unfold X, sl_list. rewrite !sorted_app. repeat split; auto.
    - unfold sl_start. destruct D; [simpl; auto|]. destruct A; [|destruct (veqb _ _)]; simpl; intuition.
    - now apply sorted_shift.
    - intros a b Ha Hb. apply sl_start_keys in Ha. subst a. apply HKs in Hb. simpl. lia.
    - intros a b Ha Hb. apply HA in Ha. apply in_app_or in Hb. destruct Hb as [Hb|Hb].
      + apply sl_start_keys in Hb. subst b. simpl. lia.
      + apply HKs in Hb. lia. }
  split; [|split].
  - (* well-formed *)
    split; [|split; [assumption|]].
    + rewrite E2. split.
      * apply sorted_app. split; [now apply app_seg_sorted|]. split; [simpl; tauto|].
        intros a b Ha [<-|[]]. simpl. apply app_seg_keys in Ha; [|assumption].
        destruct Ha as [->|Ha]; [lia|]. apply HXk in Ha. lia.
      * destruct (app_seg_first X (mx - n) d _ _ EX') as (w2 & X2 & ->). simpl. eauto.
    + destruct W as (_ & _ & WT). eapply tree_ok_keys; eauto.
  - (* content *)
    intros x Hx. rewrite E2. rewrite ev_app. rewrite (ev_gt x [(mx, vnull)]) by (intros a [<-|[]]; simpl; lia).
    rewrite app_seg_ev by assumption. unfold spec_shl. fold n.
    destruct (mx - n <=? x) eqn:Ex1.
    + replace (x <? s) with false by lia. now replace (x <? mx - n) with false by lia.
    + replace (x <? mx - n) with true by lia.
      unfold X, sl_list. destruct (x <? s) eqn:Ex2.
      * rewrite !ev_app. rewrite EL. rewrite !ev_app.
        rewrite (ev_gt x (sl_start A D s d)) by (intros a Ha; apply sl_start_keys in Ha; subst a; simpl; lia).
        rewrite (ev_gt x (shift_keys _ K)) by (intros a Ha; apply HKs in Ha; lia).
        rewrite (ev_gt x D) by (intros a Ha; apply HD in Ha; lia).
        rewrite (ev_gt x K) by (intros a Ha; apply HK in Ha; lia).
        now rewrite (ev_gt x [(mx, vnull)]) by (intros a [<-|[]]; simpl; lia).
      * rewrite app_assoc, ev_app, ev_shift. rewrite EL. rewrite (app_assoc A D), (ev_app _ (A ++ D)), (ev_app _ K).
        rewrite (ev_gt (x + n) [(mx, vnull)]) by (intros a [<-|[]]; simpl; lia).
        replace (x - - n) with (x + n) by lia.
        rewrite (ev_le x (A ++ sl_start A D s d)), (ev_le (x + n) (A ++ D)).
        -- rewrite sl_start_last by assumption. now replace (x - - (e - s)) with (x + n) by lia.
        -- intros a Ha. apply in_app_or in Ha. destruct Ha as [Ha|Ha]; [apply HA in Ha|apply HD in Ha]; lia.
        -- intros a Ha. apply in_app_or in Ha. destruct Ha as [Ha|Ha]; [apply HA in Ha|apply sl_start_keys in Ha; subst a; simpl]; lia.
  - (* minimality *)
    intros HC. unfold canonL in *. rewrite E2, removelast_last. rewrite EL in HC.
    replace (A ++ D ++ K ++ [(mx, vnull)]) with ((A ++ D ++ K) ++ [(mx, vnull)]) in HC by (now rewrite <- !app_assoc).
    rewrite removelast_last in HC. apply adjp_app in HC. destruct HC as [HCA HC]. apply adjp_app in HC. destruct HC as [HCD HCK].
    assert (adjp None (A ++ sl_start A D s d)) as HC1.
    { apply adjp_app. split; [assumption|]. unfold sl_start. destruct D as [|x D]; [simpl; auto|].
      destruct A as [|a A]; [simpl; intuition congruence|].
      destruct (veqb _ _) eqn:E; [simpl; auto|]. apply veqb_neq in E; [|assumption].
      rewrite lasto_value with (d := d) by congruence. split; [|simpl; auto]. simpl. congruence. }
    assert (A ++ sl_start A D s d <> []) as N1.
    { unfold sl_start. destruct A; [destruct D; [now specialize (HAD eq_refl)|]|]; simpl; congruence. }
    assert (A ++ D <> []) as N2.
    { destruct A; [destruct D; [now specialize (HAD eq_refl)|]|]; simpl; congruence. }
    assert (adjp None X) as HCX.
    { unfold X, sl_list. rewrite app_assoc. apply adjp_app. split; [assumption|].
      rewrite lasto_value with (d := d) by assumption. rewrite sl_start_last by assumption.
      rewrite adjp_shift. rewrite <- lasto_app in HCK. now rewrite lasto_value with (d := d) in HCK by assumption. }
    (* the key of the last node equals the start of the new tail only in the bad shape *)
    assert (fst (last X (0, d)) = mx - n -> K = [] /\ e = mx /\ sl_start A D s d = [(s, last_value D d)]) as Hkey.
    { intros HL. destruct K as [|k K].
      - split; [reflexivity|]. unfold X, sl_list in HL. simpl in HL. rewrite app_nil_r in HL.
        destruct (sl_start A D s d) as [|y ys] eqn:ES.
        + rewrite app_nil_r in *. destruct (list_snoc A N1) as (A0 & a & EA). rewrite EA, last_last in HL.
          assert (In a A) as Ha by (rewrite EA; apply in_or_app; right; now left). apply HA in Ha. lia.
        + assert (y = (s, last_value D d)) as -> by (apply (sl_start_keys A D s d); rewrite ES; now left).
          assert (ys = []) as ->.
          { unfold sl_start in ES. destruct D; [discriminate|]. destruct A; [|destruct (veqb _ _)]; congruence. }
          rewrite last_last in HL. simpl in HL. split; [lia|reflexivity].
      - exfalso. assert (In (last X (0, d)) (shift_keys (- n) (k :: K))) as HI.
        { unfold X, sl_list. destruct (list_snoc (shift_keys (- n) (k :: K))) as (Q & q & EQ); [simpl; congruence|].
          fold n. rewrite EQ, !app_assoc, last_last. apply in_or_app. right. now left. }
        apply HKs in HI. lia. }
    assert (forall y, mn <= y < s -> ev y (leaves t) d = ev y A d) as HevA.
    { intros y Hy. rewrite EL, !ev_app.
      rewrite (ev_gt y D) by (intros a Ha; apply HD in Ha; lia).
      rewrite (ev_gt y K) by (intros a Ha; apply HK in Ha; lia).
      now rewrite (ev_gt y [(mx, vnull)]) by (intros a [<-|[]]; simpl; lia). }
    assert (K = [] -> e = mx -> ev (mx - 1) (leaves t) d = last_value (A ++ D) d) as HevL.
    { intros -> ->. rewrite EL. simpl. rewrite app_assoc. apply ev_at.
      - intros a Ha. assert (fst a < mx); [|lia]. apply HB. now rewrite app_nil_r.
      - intros a [<-|[]]; simpl; lia. }
    split.
    + intros HC' (B1 & B2 & B3 & B4).
      assert (A <> []) as NA.
      { intros ->. simpl in EY. destruct D as [|dd D]; [now specialize (HAD eq_refl)|].
        simpl in EY. injection EY as -> _. specialize (HD (mn, w) (or_introl eq_refl)). simpl in HD. lia. }
      assert (K = []) as -> by (destruct K as [|k K]; [reflexivity|]; specialize (HK k (or_introl eq_refl)); specialize (HBK k (or_introl eq_refl)); lia).
      rewrite HevL in B4 by auto.
      assert (mn <= s - 1) as Hs1 by lia.
      rewrite HevA in B3 by lia. rewrite ev_le in B3 by (intros a Ha; apply HA in Ha; lia).
      assert (D <> []) as ND by (intros ->; rewrite app_nil_r in B4; congruence).
      rewrite last_value_app2 in B4. rewrite last_value_default with (d' := d) in B4 by assumption.
      assert (sl_start A D s d = [(s, last_value D d)]) as ES.
      { unfold sl_start. destruct D as [|x D]; [congruence|]. destruct A as [|a A]; [congruence|].
        destruct (veqb _ _) eqn:E; [|reflexivity]. apply veqb_ok in E. congruence. }
      unfold app_seg in HC'. unfold X, sl_list in HC'. rewrite ES in HC'. simpl app in HC'.
      rewrite last_last, removelast_last in HC'. simpl fst in HC'.
      replace (s =? mx - n) with true in HC' by lia. apply adjp_app in HC'. destruct HC' as [_ [HC' _]].
      rewrite lasto_value with (d := d) in HC' by assumption. simpl in HC'. congruence.
    + intros HN. apply app_seg_canon; auto. intros HL.
      destruct (Hkey HL) as (-> & -> & ES). intros HL2. apply HN.
      unfold X, sl_list in HL2. rewrite ES in HL2. simpl app in HL2. rewrite removelast_last in HL2.
      assert (A <> []) as NA by (intros ->; discriminate).
      rewrite lasto_value with (d := d) in HL2 by assumption. injection HL2 as HL2.
      assert (mn < s) as Hms.
      { destruct (Z.eq_dec s mn) as [E|]; [|lia]. specialize (HsA E). congruence. }
      repeat split; auto.
      * rewrite HevA by lia. rewrite ev_le by (intros a Ha; apply HA in Ha; lia). assumption.
      * rewrite HevL by auto. rewrite last_value_app2.
        unfold sl_start in ES. destruct D as [|x D]; [discriminate|].
        destruct A as [|a A]; [congruence|]. destruct (veqb _ _) eqn:E; [discriminate|].
        apply veqb_neq in E; [|assumption]. rewrite HL2 in *. congruence.
Qed.

Lemma shift_left_noop mn mx d t s e :
  wf mn mx d t -> ~ (mn <= s /\ s < e /\ e <= mx) -> shift_left veqb t s e = Ok t.
Proof.
  intros W H. destruct (left_right _ _ _ _ W) as (vl & E1 & E2).
  unfold shift_left. destruct (e <=? s) eqn:F1; [reflexivity|]. rewrite E1, E2. cbn [bind].
  destruct ((s <? mn) || (e <? mn)) eqn:F2; [reflexivity|].
  destruct ((mx <? s) || (mx <? e)) eqn:F3; [reflexivity|]. lia.
Qed.

End P.
