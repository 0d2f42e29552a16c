(** Proofs about the flat_segment_tree model, third part: shift_right, searches, the
    search tree, equality and segment iteration. *)
From Coq Require Import List ZArith Lia Bool ZifyBool ZifyNat.
From Verif Require Import Base FstModel FstProofs FstProofs2.
Import ListNotations.
Open Scope Z_scope.

Section P.
Context {V : Type}.
Variable veqb : V -> V -> bool.
Variable vnull : V.
Hypothesis veqb_ok : eqb_ok veqb.

Local Notation leaf := (Z * V)%type.
Local Notation fst_t := (@fst_t V).
Local Notation wf := (wf vnull).

Definition spec_shr (mn : Z) (d : V) (f : Z -> V) (pos n : Z) (skip : bool) : Z -> V :=
  fun x => if x <? pos then f x
           else if x <? pos + n then
             (if skip then f pos else if pos =? mn then d else f (pos - 1))
           else f (x - n).

Lemma slr_ev mx n (l : list leaf) x d : sorted l -> x < mx ->
  ev x (shift_leaf_key_right mx n l) d = ev (x - n) l d.
Proof.
  revert d; induction l as [|[k v] l IH]; intros d HS Hx; [reflexivity|].
  simpl shift_leaf_key_right. destruct (k + n <? mx) eqn:E.
  - rewrite !ev_cons. simpl fst; simpl snd. replace (k + n <=? x) with (k <=? x - n) by lia.
    apply IH; [apply HS|assumption].
  - rewrite ev_nil. symmetry. apply ev_gt. intros a [<-|Ha]; simpl; [lia|].
    destruct HS as [HS _]. specialize (HS a Ha). simpl in HS. lia.
Qed.

Lemma slr_in mx n (l : list leaf) b : In b (shift_leaf_key_right mx n l) ->
  exists a, In a l /\ fst b = fst a + n /\ fst b < mx.
Proof.
  induction l as [|[k v] l IH]; simpl; [tauto|]. destruct (k + n <? mx) eqn:E; [|simpl; tauto].
  intros [<-|H].
  - exists (k, v). simpl. repeat split; auto; lia.
  - destruct (IH H) as (a & Ha & H1 & H2). exists a. auto.
Qed.

Lemma slr_sorted mx n (l : list leaf) : sorted l -> sorted (shift_leaf_key_right mx n l).
Proof.
  induction l as [|[k v] l IH]; simpl; auto. intros [H1 H2]. destruct (k + n <? mx); [|simpl; auto].
  split; auto. intros b Hb. apply slr_in in Hb. destruct Hb as (a & Ha & -> & _). specialize (H1 a Ha). simpl in *. lia.
Qed.

Lemma slr_adjp mx n (l : list leaf) o : adjp o l -> adjp o (shift_leaf_key_right mx n l).
Proof.
  revert o; induction l as [|[k v] l IH]; intros o; simpl; auto. intros [H1 H2].
  destruct (k + n <? mx); simpl; auto.
Qed.

Lemma firstn_inner (P N : list leaf) r : firstn (length (P ++ N) - length P) (skipn (length P) ((P ++ N) ++ [r])) = N.
Proof.
  rewrite <- app_assoc, skipn_app_exact, app_length.
  replace (length P + length N - length P)%nat with (length N) by lia. apply firstn_app_exact.
Qed.

Lemma shift_right_spec mn mx d t pos n skip :
  wf mn mx d t -> 0 < n -> mn <= pos -> pos < mx ->
  exists t', shift_right veqb t pos n skip = Ok t' /\ wf mn mx d t' /\
    (forall x, mn <= x < mx ->
       ev x (leaves t') d = spec_shr mn d (fun y => ev y (leaves t) d) pos n skip x) /\
    (canonL (leaves t) -> canonL (leaves t')).
Proof.
  intros W Hn Hp1 Hp2. destruct W as ((HS & vl & Y & EL) & WI & WT).
  unfold shift_right. replace (n <=? 0) with false by lia.
  assert (left_leaf t = Ok (mn, vl)) as -> by (unfold left_leaf; now rewrite EL).
  assert (leaves t = ((mn, vl) :: Y) ++ [(mx, vnull)]) as ELr by (rewrite EL; reflexivity).
  destruct (right_leaf_app t _ _ ELr) as [-> ->]. cbn [bind].
  replace ((pos <? mn) || (mx <=? pos)) with false by lia.
  pose proof HS as HS0. rewrite ELr in HS0. apply sorted_app in HS0. destruct HS0 as (HSX & _ & HX).
  assert (forall b, In b ((mn, vl) :: Y) -> fst b < mx) as HXm.
  { intros b Hb. apply (HX b (mx, vnull) Hb). now left. }
  assert (forall b, In b Y -> mn < fst b) as HYm.
  { intros b Hb. apply HSX in Hb. simpl in Hb. lia. }
  assert (forall x, x < mx -> ev x (leaves t) d = ev x ((mn, vl) :: Y) d) as Hev.
  { intros x Hx. rewrite ELr, ev_app. apply ev_gt. intros a [<-|[]]; simpl; lia. }
  assert (forall P N, sorted P -> sorted N -> (forall b, In b P -> fst b < mx) ->
     (forall a b, In a P -> In b N -> fst a < fst b + n) ->
     sorted (P ++ shift_leaf_key_right mx n N ++ [(mx, vnull)])) as Hsort.
  { intros P N H1 H2 H3 H4. rewrite !sorted_app. repeat split; auto.
    - now apply slr_sorted.
    - simpl; tauto.
    - intros a b Ha [<-|[]]. apply slr_in in Ha. destruct Ha as (c & _ & _ & Ha). simpl. lia.
    - intros a b Ha Hb. apply in_app_or in Hb. destruct Hb as [Hb|[<-|[]]]; [|simpl; auto].
      apply slr_in in Hb. destruct Hb as (c & Hc & -> & _). auto. }
  destruct (mn =? pos) eqn:Epos.
  - assert (pos = mn) by lia. subst pos.
    assert (firstn (length ((mn, vl) :: Y) - 1) (skipn 1 (leaves t)) = Y) as ->.
    { rewrite ELr. exact (firstn_inner [(mn, vl)] Y (mx, vnull)). }
    rewrite WI.
    eexists; split; [reflexivity|]. cbn [leaves].
    set (b := (negb (veqb vl d) && negb skip)%bool).
    assert ((if b then if n <? mx - mn then (mn, d) :: (mn + n, vl) :: shift_leaf_key_right mx n Y ++ [(mx, vnull)]
             else (mn, d) :: shift_leaf_key_right mx n Y ++ [(mx, vnull)]
            else (mn, vl) :: shift_leaf_key_right mx n Y ++ [(mx, vnull)]) =
            (if b then if n <? mx - mn then [(mn, d); (mn + n, vl)] else [(mn, d)] else [(mn, vl)])
              ++ shift_leaf_key_right mx n Y ++ [(mx, vnull)]) as ->.
    { destruct b; [destruct (n <? mx - mn)|]; reflexivity. }
    split; [|split].
    + split; [|split; [reflexivity|discriminate]]. split.
      * apply Hsort; [| apply HSX | |].
        -- destruct b; [destruct (n <? mx - mn) eqn:E2|]; simpl; intuition; subst; simpl; lia.
        -- intros a Ha. destruct b; [destruct (n <? mx - mn) eqn:E2|]; simpl in Ha; intuition; subst; simpl; lia.
        -- intros a c Ha Hc. apply HYm in Hc. destruct b; [destruct (n <? mx - mn) eqn:E2|]; simpl in Ha; intuition; subst; simpl; lia.
      * destruct b; [destruct (n <? mx - mn) eqn:E2|]; simpl; [eexists; eexists ((_, _) :: _)| |]; try reflexivity; eauto.
    + intros x Hx. rewrite !ev_app. rewrite (ev_gt x [(mx, vnull)]) by (intros a [<-|[]]; simpl; lia).
      rewrite slr_ev by (try apply HSX; lia).
      unfold spec_shr. replace (x <? mn) with false by lia. rewrite Z.eqb_refl.
      rewrite !Hev by lia. rewrite !ev_cons. simpl fst; simpl snd. rewrite Z.leb_refl.
      rewrite (ev_gt mn Y) by assumption.
      destruct (x <? mn + n) eqn:Ex.
      * rewrite (ev_gt (x - n) Y) by (intros a Ha; apply HYm in Ha; lia).
        unfold b. destruct skip.
        -- rewrite andb_false_r. rewrite ev_cons, ev_nil. simpl fst; simpl snd. now replace (mn <=? x) with true by lia.
        -- destruct (veqb vl d) eqn:E1; simpl.
           ++ apply veqb_ok in E1. subst vl. now replace (mn <=? x) with true by lia.
           ++ destruct (n <? mx - mn); rewrite !ev_cons, ev_nil; simpl fst; simpl snd; replace (mn <=? x) with true by lia; [|reflexivity].
              now replace (mn + n <=? x) with false by lia.
      * replace (mn <=? x - n) with true by lia. f_equal.
        unfold b. destruct (negb (veqb vl d) && negb skip) eqn:Eb.
        -- replace (n <? mx - mn) with true by lia. rewrite !ev_cons, ev_nil; simpl fst; simpl snd.
           now replace (mn + n <=? x) with true by lia.
        -- rewrite !ev_cons, ev_nil; simpl fst; simpl snd. now replace (mn <=? x) with true by lia.
    + unfold canonL. rewrite ELr, removelast_last. rewrite app_assoc, removelast_last. intros HC.
      destruct HC as [_ HC]. simpl snd in HC. apply adjp_app. split.
      * unfold b. destruct (veqb vl d) eqn:E1; simpl; [intuition congruence|].
        apply veqb_neq in E1; [|assumption]. destruct skip; simpl; [intuition congruence|].
        destruct (n <? mx - mn); simpl; intuition congruence.
      * assert (mx - mn <= n -> shift_leaf_key_right mx n Y = []) as HE.
        { intros Hle. destruct Y as [|[k v] Y]; [reflexivity|]. simpl.
          specialize (HYm (k, v) (or_introl eq_refl)). simpl in HYm. now replace (k + n <? mx) with false by lia. }
        unfold b. destruct (negb (veqb vl d) && negb skip).
        -- destruct (n <? mx - mn) eqn:E2; [now apply slr_adjp|]. rewrite HE by lia. exact I.
        -- now apply slr_adjp.
  - destruct (sorted_split pos _ HSX) as (A & B & EAB & HA & HB).
    assert (exists A', A = (mn, vl) :: A') as (A' & EA).
    { destruct A as [|a A]; simpl in EAB.
      - subst B. specialize (HB (mn, vl) (or_introl eq_refl)). simpl in HB. lia.
      - injection EAB as <- _. eauto. }
    assert (get_insertion_pos_leaf pos (leaves t) 1 = Some (length A)) as ->.
    { unfold get_insertion_pos_leaf. rewrite ELr, EAB, EA. simpl skipn. rewrite <- app_assoc. rewrite gip_split.
      - reflexivity.
      - intros b Hb. apply HA. rewrite EA. now right.
      - intros b Hb. apply in_app_or in Hb. destruct Hb as [Hb|[<-|[]]]; [auto|simpl; lia].
      - destruct B; simpl; congruence. }
    assert (exists P N,
      (let* (kp, _) := deref (nth_error (leaves t) (length A)) in
       let q := if skip && (kp =? pos) then S (length A) else length A in
       if (q <? length (leaves t))%nat
       then Ok (mkFst (firstn q (leaves t) ++
               shift_leaf_key_right mx n (firstn (length ((mn, vl) :: Y) - q) (skipn q (leaves t))) ++ [(mx, vnull)])
               (init_val t) false (root_node t))
       else Ok t) = Ok (mkFst (P ++ shift_leaf_key_right mx n N ++ [(mx, vnull)]) (init_val t) false (root_node t)) /\
      (mn, vl) :: Y = P ++ N /\ (exists P', P = (mn, vl) :: P') /\
      (forall b, In b P -> if skip then fst b <= pos else fst b < pos) /\
      (forall b, In b N -> if skip then pos < fst b else pos <= fst b)) as (P & N & EQ & EPN & (P' & EP) & HP & HN).
    { rewrite ELr, EAB. rewrite EAB in HSX. apply sorted_app in HSX. destruct HSX as (_ & HSB & HAB).
      assert (forall (P N : list leaf) r, ((length P <? length ((P ++ N) ++ [r]))%nat = true)) as Hlen.
      { intros P N r. rewrite !app_length. simpl. lia. }
      destruct B as [|[kp vp] B].
      - rewrite app_nil_r. rewrite nth_error_app_mid. cbn [deref bind].
        replace (mx =? pos) with false by lia. rewrite andb_false_r.
        exists A, []. pose proof (Hlen A [] (mx, vnull)) as Hl. rewrite app_nil_r in Hl. rewrite Hl.
        rewrite firstn_app_exact. rewrite skipn_app_exact. rewrite Nat.sub_diag. simpl firstn.
        repeat split; auto; try (now rewrite app_nil_r); eauto.
        + intros b Hb. apply HA in Hb. destruct skip; lia.
        + intros b [].
      - rewrite <- app_assoc. simpl app. rewrite nth_error_app_mid. cbn [deref bind].
        destruct (skip && (kp =? pos)) eqn:Esk.
        + destruct skip; [|discriminate]. simpl in Esk. assert (kp = pos) by lia. subst kp.
          exists (A ++ [(pos, vp)]), B.
          replace (S (length A)) with (length (A ++ [(pos, vp)])) by (rewrite app_length; simpl; lia).
          replace (A ++ (pos, vp) :: B ++ [(mx, vnull)]) with (((A ++ [(pos, vp)]) ++ B) ++ [(mx, vnull)]) by (now rewrite <- !app_assoc).
          rewrite Hlen. replace (A ++ (pos, vp) :: B) with ((A ++ [(pos, vp)]) ++ B) by (now rewrite <- !app_assoc).
          rewrite firstn_inner. rewrite <- (app_assoc _ B), firstn_app_exact.
          repeat split; auto.
          * rewrite EA. simpl. eauto.
          * intros b Hb. apply in_app_or in Hb. destruct Hb as [Hb|[<-|[]]]; simpl; [apply HA in Hb|]; lia.
          * intros b Hb. destruct HSB as [HSB _]. specialize (HSB b Hb). simpl in HSB. lia.
        + exists A, ((kp, vp) :: B).
          replace (A ++ (kp, vp) :: B ++ [(mx, vnull)]) with ((A ++ (kp, vp) :: B) ++ [(mx, vnull)]) by (now rewrite <- !app_assoc).
          rewrite Hlen. rewrite firstn_inner. rewrite <- (app_assoc _ ((kp, vp) :: B)), firstn_app_exact.
          repeat split; auto; eauto.
          * intros b Hb. apply HA in Hb. destruct skip; lia.
          * intros b Hb. specialize (HB b Hb) as Hb1. destruct skip; [|assumption].
            pose proof (HB (kp, vp) (or_introl eq_refl)) as Hkp. simpl in Esk, Hkp.
            destruct Hb as [<-|Hb]; simpl; [lia|]. destruct HSB as [HSB _]. specialize (HSB b Hb). simpl in HSB. lia. }
    eexists; split; [exact EQ|]. cbn [leaves].
    rewrite EPN in HSX. apply sorted_app in HSX. destruct HSX as (HSP & HSN & HPN).
    assert (forall b, In b P -> fst b <= pos) as HP'.
    { intros b Hb. apply HP in Hb. destruct skip; lia. }
    assert (forall b, In b N -> pos <= fst b) as HN'.
    { intros b Hb. apply HN in Hb. destruct skip; lia. }
    split; [|split].
    + split; [|split; [assumption|discriminate]]. split.
      * apply Hsort; auto.
        -- intros b Hb. apply HXm. rewrite EPN. apply in_or_app. now left.
        -- intros a b Ha Hb. specialize (HPN a b Ha Hb). lia.
      * rewrite EP. simpl. rewrite app_assoc. eauto.
    + intros x Hx. rewrite !ev_app. rewrite (ev_gt x [(mx, vnull)]) by (intros a [<-|[]]; simpl; lia).
      rewrite slr_ev by (auto; lia). unfold spec_shr. rewrite !Hev by lia. rewrite EPN.
      destruct (x <? pos) eqn:Ex.
      * rewrite (ev_gt (x - n) N) by (intros a Ha; apply HN' in Ha; lia). rewrite ev_app.
        now rewrite (ev_gt x N) by (intros a Ha; apply HN' in Ha; lia).
      * rewrite (ev_le x P) by (intros a Ha; apply HP' in Ha; lia).
        destruct (x <? pos + n) eqn:Ex2.
        -- rewrite (ev_gt (x - n) N) by (intros a Ha; apply HN' in Ha; lia).
           replace (pos =? mn) with false by lia. symmetry. destruct skip.
           ++ apply ev_at; auto.
           ++ apply ev_at; intros a Ha; [apply HP in Ha|apply HN' in Ha]; lia.
        -- rewrite ev_app. now rewrite (ev_le (x - n) P) by (intros a Ha; apply HP' in Ha; lia).
    + unfold canonL. rewrite ELr, removelast_last, app_assoc, removelast_last, EPN.
      rewrite !adjp_app. intros [H1 H2]. split; [assumption|]. now apply slr_adjp.
Qed.

Lemma shift_right_noop mn mx d t pos n skip :
  wf mn mx d t -> ~ (0 < n /\ mn <= pos < mx) -> shift_right veqb t pos n skip = Ok t.
Proof.
  intros W H. destruct (left_right _ _ _ _ _ W) as (vl & E1 & E2).
  unfold shift_right. destruct (n <=? 0) eqn:F1; [reflexivity|]. rewrite E1, E2. cbn [bind].
  destruct ((pos <? mn) || (mx <=? pos)) eqn:F2; [reflexivity|]. lia.
Qed.

(** ** Searches *)

(** [p] is the leaf that starts the segment holding [x]. *)
Definition leaf_at (L : list leaf) (x : Z) (p : nat) (v : V) (ks ke : Z) : Prop :=
  exists w, nth_error L p = Some (ks, v) /\ nth_error L (S p) = Some (ke, w) /\ ks <= x < ke.

Lemma leaf_at_ev mn mx vr L x p v ks ke d : wfL mn mx vr L -> leaf_at L x p v ks ke -> ev x L d = v.
Proof.
  intros (HS & _) (w & H1 & H2 & Hx).
  apply nth_error_split in H1. destruct H1 as (A & B & -> & <-).
  rewrite nth_error_app2 in H2 by lia. replace (S (length A) - length A)%nat with 1%nat in H2 by lia.
  simpl in H2. destruct B as [|b B]; [discriminate|]. simpl in H2. injection H2 as ->.
  replace (A ++ (ks, v) :: (ke, w) :: B) with ((A ++ [(ks, v)]) ++ (ke, w) :: B) by (now rewrite <- app_assoc).
  replace (A ++ (ks, v) :: (ke, w) :: B) with ((A ++ [(ks, v)]) ++ (ke, w) :: B) in HS by (now rewrite <- app_assoc).
  apply sorted_app in HS. destruct HS as (HS1 & HS2 & HS3).
  rewrite ev_at; [apply last_value_app| |].
  - intros a Ha. apply sorted_app in HS1. destruct HS1 as (_ & _ & HS1).
    apply in_app_or in Ha. destruct Ha as [Ha|[<-|[]]]; simpl; [|lia].
    specialize (HS1 a (ks, v) Ha (or_introl eq_refl)). simpl in HS1. lia.
  - intros a [<-|Ha]; simpl; [lia|]. destruct HS2 as [HS2 _]. specialize (HS2 a Ha). simpl in HS2. lia.
Qed.

Lemma leaf_at_exists mn mx vr (L : list leaf) x : wfL mn mx vr L -> mn <= x < mx ->
  exists p v ks ke, leaf_at L x p v ks ke.
Proof.
  intros (HS & v0 & X & EX) Hx.
  destruct (sorted_split (x + 1) L HS) as (A & B & EAB & HA & HB).
  assert (A <> []) as NA.
  { intros ->. simpl in EAB. subst B. specialize (HB (mn, v0)). rewrite EX in HB. specialize (HB (or_introl eq_refl)). simpl in HB. lia. }
  assert (B <> []) as NB.
  { intros ->. rewrite app_nil_r in EAB. specialize (HA (mx, vr)). rewrite <- EAB, EX in HA.
    assert (In (mx, vr) ((mn, v0) :: X ++ [(mx, vr)])) as HI by (right; apply in_or_app; right; now left).
    apply HA in HI. simpl in HI. lia. }
  destruct (list_snoc A NA) as (A0 & [ks v] & ->). destruct B as [|[ke w] B]; [congruence|].
  exists (length A0), v, ks, ke, w. rewrite EAB, <- app_assoc. simpl app. repeat split.
  - apply nth_error_app_mid.
  - rewrite nth_error_app2 by lia. now replace (S (length A0) - length A0)%nat with 1%nat by lia.
  - specialize (HA (ks, v)). rewrite in_app_iff in HA. simpl in HA. assert (ks < x + 1) by auto. lia.
  - specialize (HB (ke, w) (or_introl eq_refl)). simpl in HB. lia.
Qed.

Lemma leaf_at_unique (L : list leaf) x p v ks ke p' v' ks' ke' : sorted L ->
  leaf_at L x p v ks ke -> leaf_at L x p' v' ks' ke' -> p = p' /\ v = v' /\ ks = ks' /\ ke = ke'.
Proof.
  intros HS (w & A1 & A2 & A3) (w' & B1 & B2 & B3).
  assert (forall i j a b, (i < j)%nat -> nth_error L i = Some a -> nth_error L j = Some b -> fst a < fst b) as Hmono.
  { clear -HS. induction L as [|h L IH]; intros i j a b Hij Ha Hb; [destruct i; discriminate|].
    destruct HS as [HS1 HS2]. destruct i as [|i]; destruct j as [|j]; try lia; simpl in *.
    - injection Ha as <-. apply HS1. eapply nth_error_In; eauto.
    - apply (IH HS2 i j); auto; lia. }
  destruct (lt_eq_lt_dec p p') as [[H|H]|H].
  - exfalso. destruct (Nat.eq_dec (S p) p') as [E|E].
    + subst p'. rewrite B1 in A2. injection A2 as -> ->. lia.
    + assert (fst (ke, w) < fst (ks', v')) by (eapply (Hmono (S p) p'); eauto; lia). simpl in *. lia.
  - subst p'. rewrite A1 in B1. rewrite A2 in B2. injection B1 as -> ->. injection B2 as -> ->. auto.
  - exfalso. destruct (Nat.eq_dec (S p') p) as [E|E].
    + subst p. rewrite A1 in B2. injection B2 as -> ->. lia.
    + assert (fst (ke', w') < fst (ks, v)) by (eapply (Hmono (S p') p); eauto; lia). simpl in *. lia.
Qed.

(** Position found by get_insertion_pos_leaf from a hint not past [x]. *)
Lemma gip_from mn mx vr (L : list leaf) x p v ks ke q kq vq :
  wfL mn mx vr L -> leaf_at L x p v ks ke -> nth_error L q = Some (kq, vq) -> kq <= x ->
  get_insertion_pos_leaf x L q = Some (if ks =? x then p else S p).
Proof.
  intros (HS & _) HL Hq Hkq. pose proof HL as (w & H1 & H2 & Hx).
  assert (q <= p)%nat as Hqp.
  { destruct (le_lt_dec q p) as [|Hlt]; [assumption|exfalso].
    destruct (Nat.eq_dec q (S p)) as [->|].
    - rewrite H2 in Hq. injection Hq as -> ->. lia.
    - assert (ke < kq).
      { clear -HS H2 Hq Hlt n. revert q p Hlt n H2 Hq. induction L as [|h L IH]; intros q p Hlt n H2 Hq; [destruct q; discriminate|].
        destruct HS as [HS1 HS2]. destruct q as [|q]; [lia|]. simpl in *. destruct p as [|p]; simpl in *.
        - destruct L as [|h2 L]; [discriminate|]. injection H2 as ->. destruct HS2 as [HS2 _].
          destruct q as [|q]; [lia|]. simpl in Hq. apply (HS2 (kq, vq)). eapply nth_error_In; eauto.
        - apply (IH HS2 q p); auto; lia. }
      lia. }
  unfold get_insertion_pos_leaf.
  apply nth_error_split in H1. destruct H1 as (A & B & EL & EA).
  assert (exists B', B = (ke, w) :: B') as (B' & ->).
  { rewrite EL, nth_error_app2 in H2 by lia. replace (S p - length A)%nat with 1%nat in H2 by lia.
    simpl in H2. destruct B as [|b B]; [discriminate|]. injection H2 as ->. eauto. }
  rewrite EL in *. rewrite skipn_app. replace (q - length A)%nat with O by lia. simpl (skipn 0 _).
  pose proof HS as HS'. apply sorted_app in HS'. destruct HS' as (HSA & HSB & HSAB).
  assert (forall b, In b (skipn q A) -> fst b < ks) as HA.
  { intros b Hb. apply (HSAB b (ks, v)); [|now left]. rewrite <- (firstn_skipn q A). apply in_or_app. now right. }
  assert (length (skipn q A) = (p - q)%nat) as Hlen by (rewrite skipn_length; lia).
  destruct (ks =? x) eqn:E.
  - rewrite gip_split; [f_equal; lia| | |congruence].
    + intros b Hb. apply HA in Hb. lia.
    + intros b [<-|Hb]; simpl; [lia|]. destruct HSB as [HSB _]. specialize (HSB b Hb). simpl in HSB. lia.
  - replace (skipn q A ++ (ks, v) :: (ke, w) :: B') with ((skipn q A ++ [(ks, v)]) ++ (ke, w) :: B') by (now rewrite <- app_assoc).
    rewrite gip_split; [f_equal; rewrite app_length; simpl; lia| | |congruence].
    + intros b Hb. apply in_app_or in Hb. destruct Hb as [Hb|[<-|[]]]; simpl; [apply HA in Hb|]; lia.
    + intros b [<-|Hb]; simpl; [lia|]. destruct HSB as [_ [HSB _]]. specialize (HSB b Hb). simpl in HSB. lia.
Qed.

Lemma search_impl_at (t : fst_t) x p v ks ke :
  leaf_at (leaves t) x p v ks ke ->
  search_impl t (if ks =? x then p else S p) x = Ok (Some (p, v, ks, ke)).
Proof.
  intros (w & H1 & H2 & Hx). unfold search_impl. destruct (ks =? x) eqn:E.
  - rewrite H1. cbn [deref bind]. rewrite E. now rewrite H2.
  - rewrite H2. cbn [deref bind]. replace (ke =? x) with false by lia. rewrite H1. cbn [deref bind].
    now replace (ks <? x) with true by lia.
Qed.

Lemma search_ok mn mx d t x : wf mn mx d t -> mn <= x < mx ->
  exists p v ks ke, search t x = Ok (Some (p, v, ks, ke)) /\ leaf_at (leaves t) x p v ks ke /\ v = ev x (leaves t) d.
Proof.
  intros W Hx. pose proof W as (WL & _).
  destruct (leaf_at_exists _ _ _ _ _ WL Hx) as (p & v & ks & ke & HL).
  destruct (left_right _ _ _ _ _ W) as (vl & E1 & E2).
  exists p, v, ks, ke. split; [|split; [assumption|]].
  - unfold search. rewrite E1, E2. cbn [bind]. replace ((x <? mn) || (mx <=? x)) with false by lia.
    assert (nth_error (leaves t) 0 = Some (mn, vl)) as E0.
    { unfold left_leaf in E1. destruct (nth_error (leaves t) 0); simpl in E1; congruence. }
    rewrite (gip_from _ _ _ _ _ _ _ _ _ _ _ _ WL HL E0) by lia. cbn [deref bind].
    now apply search_impl_at.
  - symmetry. eapply leaf_at_ev; eauto.
Qed.

Lemma search_out mn mx d t x : wf mn mx d t -> ~ (mn <= x < mx) -> search t x = Ok None.
Proof.
  intros W Hx. destruct (left_right _ _ _ _ _ W) as (vl & E1 & E2).
  unfold search. rewrite E1, E2. cbn [bind]. now replace ((x <? mn) || (mx <=? x)) with true by lia.
Qed.

Lemma search_hint_eq mn mx d t pos x : wf mn mx d t ->
  match pos with Some p => (p < length (leaves t))%nat | None => True end ->
  search_hint t pos x = search t x.
Proof.
  intros W Hpos. destruct (left_right _ _ _ _ _ W) as (vl & E1 & E2).
  unfold search_hint. rewrite E1, E2. cbn [bind].
  destruct ((x <? mn) || (mx <=? x)) eqn:Ex.
  - symmetry. eapply search_out; eauto. lia.
  - destruct pos as [q|]; [|reflexivity].
    destruct (nth_error (leaves t) q) as [[kq vq]|] eqn:Eq; [|apply nth_error_None in Eq; lia].
    cbn [deref bind]. destruct (x <? kq) eqn:Ek; [reflexivity|].
    destruct (search_ok mn mx d t x W ltac:(lia)) as (p & v & ks & ke & -> & HL & _).
    rewrite (gip_from _ _ _ _ _ _ _ _ _ _ _ _ (proj1 W) HL Eq) by lia. cbn [deref bind].
    now apply search_impl_at.
Qed.

Lemma search_by_key_at mn mx d t x q kq vq : wf mn mx d t -> mn <= x < mx ->
  nth_error (leaves t) q = Some (kq, vq) -> kq <= x ->
  exists p v ks ke, search_by_key_impl t (Some q) x = Ok (Some p) /\ leaf_at (leaves t) x p v ks ke.
Proof.
  intros W Hx Eq Hk. destruct (search_ok mn mx d t x W Hx) as (p & v & ks & ke & _ & HL & _).
  exists p, v, ks, ke. split; [|assumption].
  destruct (left_right _ _ _ _ _ W) as (vl & E1 & E2).
  unfold search_by_key_impl. rewrite E1, E2. cbn [bind]. replace ((x <? mn) || (mx <=? x)) with false by lia.
  rewrite (gip_from _ _ _ _ _ _ _ _ _ _ _ _ (proj1 W) HL Eq) by lia.
  destruct HL as (w & H1 & H2 & H3). destruct (ks =? x) eqn:E.
  - rewrite H1. cbn [deref bind]. now rewrite E.
  - rewrite H2. cbn [deref bind]. replace (ke =? x) with false by lia. rewrite H1. cbn [deref bind].
    now replace (ks <? x) with true by lia.
Qed.

Lemma search_key_ok mn mx d t x : wf mn mx d t -> mn <= x < mx ->
  exists p v ks ke, search_key t x = Ok (Some p) /\ leaf_at (leaves t) x p v ks ke.
Proof.
  intros W Hx. destruct (left_right _ _ _ _ _ W) as (vl & E1 & E2).
  assert (nth_error (leaves t) 0 = Some (mn, vl)) as E0.
  { unfold left_leaf in E1. destruct (nth_error (leaves t) 0); simpl in E1; congruence. }
  eapply search_by_key_at; eauto. lia.
Qed.

Lemma search_key_out mn mx d t x pos : wf mn mx d t -> ~ (mn <= x < mx) -> search_by_key_impl t pos x = Ok None.
Proof.
  intros W Hx. destruct (left_right _ _ _ _ _ W) as (vl & E1 & E2).
  unfold search_by_key_impl. rewrite E1, E2. cbn [bind]. now replace ((x <? mn) || (mx <=? x)) with true by lia.
Qed.

End P.
