(** Properties C01-C10: mdds::flat_segment_tree.

    Everything below is stated with the public calls of the model (constructor,
    insert_front/insert_back/insert, shift_left, shift_right, build_tree, clear,
    search, search_tree, segments, operator==) and the small specification at the
    top of the file. *)
From Coq Require Import List ZArith Lia Bool ZifyBool ZifyNat.
From Verif Require Import Base FstModel FstProofs FstProofs2 FstProofs3 FstProofs4.
Import ListNotations.
Open Scope Z_scope.

(** * Specification *)
Section Spec.
Context {V : Type}.
Variable veqb : V -> V -> bool.
Variable vnull : V.

(** A tree some client has built from the constructor by public calls. *)
Definition reach (mn mx : Z) (d : V) (t : @fst_t V) : Prop :=
  mn < mx /\ exists ops, run veqb (fst_new vnull mn mx d) ops = Ok t.

(** What a client sees at key [x]. *)
Definition val_at (t : @fst_t V) (x : Z) : option V :=
  match search t x with Ok (Some (_, v, _, _)) => Some v | _ => None end.

(** Content after overwriting [s,e). *)
Definition overwrite (f : Z -> option V) (s e : Z) (v : V) (x : Z) : option V :=
  if (s <=? x) && (x <? e) then Some v else f x.

(** Content demanded after one call, given the content before. *)
Definition content_step (mn mx : Z) (d : V) (f : Z -> V) (o : @op V) (x : Z) : V :=
  match o with
  | OFront s e v | OBack s e v | OHint _ s e v => if (s <=? x) && (x <? e) then v else f x
  | OShiftL s e =>
      if (mn <=? s) && (s <? e) && (e <=? mx) then
        if x <? s then f x else if x <? mx - (e - s) then f (x + (e - s)) else d
      else f x
  | OShiftR pos n skip =>
      if (0 <? n) && (mn <=? pos) && (pos <? mx) then
        if x <? pos then f x
        else if x <? pos + n then (if skip then f pos else if pos =? mn then d else f (pos - 1))
        else f (x - n)
      else f x
  | OBuild | OCopy => f x
  | OClear => d
  end.
(** Content demanded after a whole history. *)
Fixpoint content (mn mx : Z) (d : V) (f : Z -> V) (ops : list (@op V)) (x : Z) : V :=
  match ops with
  | [] => f x
  | o :: rest => content mn mx d (content_step mn mx d f o) rest x
  end.

(** The listed segments tile [lo,hi). *)
Fixpoint tiles (lo hi : Z) (l : list (Z * Z * V)) : Prop :=
  match l with
  | [] => lo = hi
  | (s, e, _) :: rest => s = lo /\ s < e /\ tiles e hi rest
  end.
(** No two consecutive segments carry the same value. *)
Fixpoint neighbours_differ (l : list (Z * Z * V)) : Prop :=
  match l with
  | (_, _, v1) :: (((_, _, v2) :: _) as rest) => v1 <> v2 /\ neighbours_differ rest
  | _ => True
  end.
(** A tree whose listed segments are as few as possible. *)
Definition minimal (t : @fst_t V) : Prop := neighbours_differ (segments t).

(** A history without left shifts. *)
Definition no_shift_left (ops : list (@op V)) : Prop :=
  forall o, In o ops -> match o with OShiftL _ _ => False | _ => True end.

End Spec.

(** * Bridges from the proofs to the specification *)
Section Bridge.
Context {V : Type}.
Variable veqb : V -> V -> bool.
Variable vnull : V.
Hypothesis veqb_ok : eqb_ok veqb.
Local Notation fst_t := (@fst_t V).
Local Notation wf := (wf vnull).

Lemma reach_wf mn mx d t : reach veqb vnull mn mx d t -> wf mn mx d t.
Proof. intros (Hlt & ops & HR). eapply run_new; eauto. Qed.

Lemma val_at_ev mn mx d t x : wf mn mx d t -> mn <= x < mx -> val_at t x = Some (ev x (leaves t) d).
Proof.
  intros W Hx. destruct (search_ok vnull mn mx d t x W Hx) as (p & v & ks & ke & E & _ & ->). unfold val_at. now rewrite E.
Qed.

Lemma val_at_out mn mx d t x : wf mn mx d t -> ~ (mn <= x < mx) -> val_at t x = None.
Proof. intros W Hx. unfold val_at. now rewrite (search_out vnull mn mx d t x W Hx). Qed.

Lemma content_spec mn mx (d : V) ops : forall f x,
  content mn mx d f ops x = fold_left (spec_step mn mx d) ops f x.
Proof.
  assert (forall f o x, content_step mn mx d f o x = spec_step mn mx d f o x) as HS.
  { intros f o x. destruct o; simpl; auto.
    - destruct (_ && _); reflexivity.
    - destruct (_ && _); reflexivity. }
  assert (forall ops f g x, (forall y, f y = g y) -> content mn mx d f ops x = content mn mx d g ops x) as HX.
  { clear. induction ops as [|o ops IH]; intros f g x H; simpl; auto. apply IH. intros y.
    destruct o; simpl; rewrite ?H; auto. }
  induction ops as [|o ops IH]; intros f x; simpl; auto. rewrite <- IH. apply HX. intros; apply HS.
Qed.

Lemma tiles_sorted (L : list (Z * V)) : forall mn v0 X mx vr, L = (mn, v0) :: X ++ [(mx, vr)] -> sorted L -> tiles mn mx (segments_of L).
Proof.
  induction L as [|[k v] L IH]; intros mn v0 X mx vr E S; [discriminate|].
  injection E as -> -> ->. destruct X as [|[k1 v1] X].
  - simpl in *. repeat split; auto. destruct S as [S _]. apply (S (mx, vr)). now left.
  - change (segments_of ((mn, v0) :: ((k1, v1) :: X) ++ [(mx, vr)])) with
      ((mn, k1, v0) :: segments_of (((k1, v1) :: X) ++ [(mx, vr)])).
    simpl tiles. split; [reflexivity|]. destruct S as [S1 S2]. split; [apply (S1 (k1, v1)); now left|].
    eapply IH; [reflexivity|assumption].
Qed.

Lemma neighbours_canon (L : list (Z * V)) : neighbours_differ (segments_of L) <-> canonL L.
Proof.
  unfold canonL. induction L as [|[k v] L IH]; [simpl; tauto|].
  destruct L as [|[k1 v1] L]; [simpl; tauto|].
  destruct L as [|[k2 v2] L]; [simpl; intuition congruence|].
  change (segments_of ((k, v) :: (k1, v1) :: (k2, v2) :: L)) with ((k, k1, v) :: (k1, k2, v1) :: segments_of ((k2, v2) :: L)).
  change (segments_of ((k1, v1) :: (k2, v2) :: L)) with ((k1, k2, v1) :: segments_of ((k2, v2) :: L)) in IH.
  change (removelast ((k, v) :: (k1, v1) :: (k2, v2) :: L)) with ((k, v) :: removelast ((k1, v1) :: (k2, v2) :: L)).
  change (removelast ((k1, v1) :: (k2, v2) :: L)) with ((k1, v1) :: removelast ((k2, v2) :: L)) in *.
  set (R := removelast ((k2, v2) :: L)) in *. 
  change (neighbours_differ ((k, k1, v) :: (k1, k2, v1) :: segments_of ((k2, v2) :: L))) with
    (v <> v1 /\ neighbours_differ ((k1, k2, v1) :: segments_of ((k2, v2) :: L))).
  rewrite IH. simpl. intuition congruence.
Qed.

Lemma minimal_canon (t : fst_t) : minimal t <-> canonL (leaves t).
Proof. apply neighbours_canon. Qed.

Definition insert_calls_agree (t : fst_t) (s e : Z) (v : V) (r : res (fst_t * iter * bool)) : Prop :=
  insert_front veqb t s e v = r /\ insert_back veqb t s e v = r /\
  insert_hint veqb t None s e v = r /\
  forall p, (p < leaf_size t)%nat -> insert_hint veqb t (Some p) s e v = r.

Lemma C01_insert_pointwise_lemma mn mx d t s e v :
  reach veqb vnull mn mx d t -> ~ (s < mn /\ e = mn) ->
  exists t' it chg, insert_calls_agree t s e v (Ok (t', it, chg)) /\
    forall x, mn <= x < mx -> val_at t' x = overwrite (val_at t) s e v x.
Proof.
  intros R HN. apply reach_wf in R.
  destruct (insert_all veqb vnull veqb_ok mn mx d t s e v R HN) as (r & (t' & it & chg & -> & W & _ & HE & _) & H).
  exists t', it, chg. split; [exact H|]. intros x Hx.
  rewrite (val_at_ev mn mx d) by assumption. rewrite HE by assumption. unfold upd, overwrite.
  destruct ((s <=? x) && (x <? e)); [reflexivity|]. now rewrite (val_at_ev mn mx d) by assumption.
Qed.

Lemma C01_history_lemma mn mx d ops t :
  mn < mx -> run veqb (fst_new vnull mn mx d) ops = Ok t -> forall x,
  (mn <= x < mx -> exists p ks ke, search t x = Ok (Some (p, content mn mx d (fun _ => d) ops x, ks, ke)) /\
     ks <= x < ke /\ forall y, ks <= y < ke -> mn <= y < mx /\ content mn mx d (fun _ => d) ops y = content mn mx d (fun _ => d) ops x) /\
  (~ (mn <= x < mx) -> search t x = Ok None).
Proof.
  intros Hlt HR x. destruct (run_new veqb vnull veqb_ok mn mx d ops t Hlt HR) as (W & HE & _). split.
  - intros Hx. destruct (search_ok vnull mn mx d t x W Hx) as (p & v & ks & ke & E & HL & Hv).
    exists p, ks, ke. rewrite content_spec. unfold spec_run in HE. rewrite <- HE by assumption. rewrite <- Hv.
    split; [assumption|]. split; [now destruct HL as (w & _ & _ & HL)|].
    intros y Hy. destruct HL as (w & L1 & L2 & L3).
    pose proof (wfL_bounds _ _ _ _ _ (proj1 W) (nth_error_In _ _ L1)) as B1.
    pose proof (wfL_bounds _ _ _ _ _ (proj1 W) (nth_error_In _ _ L2)) as B2. simpl in B1, B2.
    split; [lia|]. rewrite content_spec, <- HE by lia.
    eapply leaf_at_ev; [apply W|]. exists w. eauto.
  - intros Hx. now apply (search_out vnull mn mx d).
Qed.

(** A call has defined behaviour: hints point at a leaf of the tree, and the segment
    is not one of those that end exactly at the lower bound. *)
Definition proper_call (mn : Z) (t : fst_t) (o : @op V) : Prop :=
  match o with
  | OFront s e _ | OBack s e _ => ~ (s < mn /\ e = mn)
  | OHint p s e _ => ~ (s < mn /\ e = mn) /\ match p with Some p => (p < leaf_size t)%nat | None => True end
  | _ => True
  end.

Lemma C01_total_lemma mn mx d t o : reach veqb vnull mn mx d t ->
  (exists t', step veqb t o = Ok t' /\ reach veqb vnull mn mx d t') <-> proper_call mn t o.
Proof.
  intros R. pose proof (reach_wf _ _ _ _ R) as W.
  transitivity (exists t', step veqb t o = Ok t').
  - split; [firstorder|]. intros [t' H]. exists t'. split; [assumption|].
    destruct R as (Hlt & ops & HR). split; [assumption|]. exists (ops ++ [o]).
    clear -HR H. revert HR. generalize (fst_new vnull mn mx d) as u. induction ops as [|o' ops IH]; intros u HR; simpl in *.
    + injection HR as ->. now rewrite H.
    + destruct (step veqb u o'); try discriminate. cbn [bind] in *. auto.
  - exact (step_defined veqb vnull veqb_ok mn mx d t o W).
Qed.

Lemma C02_tiles_lemma mn mx d t : reach veqb vnull mn mx d t ->
  tiles mn mx (segments t) /\
  (forall s e v x, In (s, e, v) (segments t) -> s <= x < e -> exists p, search t x = Ok (Some (p, v, s, e))) /\
  (forall x p v s e, search t x = Ok (Some (p, v, s, e)) -> In (s, e, v) (segments t) /\ s <= x < e).
Proof.
  intros R. apply reach_wf in R. pose proof R as ((S & v0 & X & EX) & _). split; [|split].
  - eapply tiles_sorted; eauto.
  - intros s e v x HI Hx. apply In_nth_error in HI. destruct HI as [p HI].
    apply segments_nth_inv in HI. destruct HI as (w & N1 & N2).
    pose proof (wfL_bounds _ _ _ _ _ (proj1 R) (nth_error_In _ _ N1)) as B1.
    pose proof (wfL_bounds _ _ _ _ _ (proj1 R) (nth_error_In _ _ N2)) as B2. simpl in B1, B2.
    destruct (search_ok vnull mn mx d t x R ltac:(lia)) as (p' & v' & ks & ke & E & HL & _).
    assert (leaf_at (leaves t) x p v s e) as HL' by (exists w; auto).
    destruct (leaf_at_unique _ _ _ _ _ _ _ _ _ _ S HL HL') as (-> & -> & -> & ->). eauto.
  - intros x p v s e E. destruct (Z_le_dec mn x) as [H1|H1]; [destruct (Z_lt_dec x mx) as [H2|H2]|].
    + destruct (search_ok vnull mn mx d t x R ltac:(lia)) as (p' & v' & ks & ke & E' & (w & N1 & N2 & Hx) & _).
      rewrite E in E'. injection E' as <- <- <- <-. split; [|assumption].
      eapply nth_error_In. eapply segments_nth; eauto.
    + rewrite (search_out vnull mn mx d) in E by (auto; lia). discriminate.
    + rewrite (search_out vnull mn mx d) in E by (auto; lia). discriminate.
Qed.

Lemma C02_minimal_lemma mn mx d ops t : mn < mx -> run veqb (fst_new vnull mn mx d) ops = Ok t ->
  no_shift_left ops -> minimal t.
Proof.
  intros Hlt HR HN. apply minimal_canon. destruct (run_new veqb vnull veqb_ok mn mx d ops t Hlt HR) as (_ & _ & HC).
  apply HC. clear -HN. assert (forall f, keeps_min_run mn mx d f ops) as G; [|apply G].
  induction ops as [|o ops IH]; intros f; simpl; auto. split.
  - specialize (HN o (or_introl eq_refl)). destruct o; simpl; tauto.
  - apply IH. intros o' Ho'. apply HN. now right.
Qed.

Lemma C02_minimal_step_lemma mn mx d t o t' : reach veqb vnull mn mx d t -> step veqb t o = Ok t' ->
  minimal t -> 
  match o with
  | OShiftL s e => (minimal t' <-> ~ (mn < s /\ s < e /\ e = mx /\ val_at t (s - 1) = Some d /\ val_at t (mx - 1) <> Some d))
  | _ => minimal t'
  end.
Proof.
  intros R H HM. apply reach_wf in R. rewrite minimal_canon in HM.
  pose proof (wf_lt _ _ _ _ _ R) as Hlt.
  destruct (step_ok veqb vnull veqb_ok mn mx d t o t' R H) as (W & _ & HC).
  destruct o; simpl in *; try (apply minimal_canon; auto; fail).
  rewrite minimal_canon.
  destruct ((mn <=? s) && (s <? e) && (e <=? mx)) eqn:E.
  - destruct (shift_left_spec veqb vnull veqb_ok mn mx d t s e R) as (u & HR & _ & _ & H3); [lia..|].
    rewrite H in HR. injection HR as <-. rewrite (H3 HM). clear H3 HC. unfold shl_bad.
    destruct (Z.eq_dec mn s) as [Hs|Hs].
    + split; intros _; lia.
    + rewrite (val_at_ev mn mx d) by (auto; lia). rewrite (val_at_ev mn mx d t (mx - 1)) by (auto; lia).
      split; intros G G'; apply G; intuition; try congruence; lia.
  - rewrite (shift_left_noop veqb vnull mn mx d) in H by (auto; lia). injection H as <-.
    split; [intros _|auto]. lia.
Qed.

Lemma C03_agree_lemma mn mx d t s e v : reach veqb vnull mn mx d t -> exists r, insert_calls_agree t s e v r.
Proof.
  intros R. apply reach_wf in R. destruct (Z_lt_dec s mn) as [H1|H1]; [destruct (Z.eq_dec e mn) as [->|H2]|].
  - exists Undef. repeat split.
    + now apply (insert_bad veqb vnull mn mx d).
    + now apply (insert_bad veqb vnull mn mx d).
    + now apply (insert_hint_bad veqb vnull mn mx d).
    + intros p _. now apply (insert_hint_bad veqb vnull mn mx d).
  - destruct (insert_all veqb vnull veqb_ok mn mx d t s e v R) as (r & _ & H); [lia|]. exists r. exact H.
  - destruct (insert_all veqb vnull veqb_ok mn mx d t s e v R) as (r & _ & H); [lia|]. exists r. exact H.
Qed.

Lemma C04_changed_lemma mn mx d t s e v t' it chg : reach veqb vnull mn mx d t -> minimal t ->
  insert_front veqb t s e v = Ok (t', it, chg) ->
  (chg = true <-> exists x, mn <= x < mx /\ val_at t' x <> val_at t x) /\ (chg = false -> t' = t).
Proof.
  intros R HM H. apply reach_wf in R. rewrite minimal_canon in HM.
  assert (~ (s < mn /\ e = mn)) as HN.
  { intros [H1 ->]. unfold insert_front in H. rewrite (insert_bad veqb vnull mn mx d) in H by auto. discriminate. }
  destruct (insert_all veqb vnull veqb_ok mn mx d t s e v R HN) as (r & (u & it' & chg' & -> & W & _ & HE & HF & HT & _) & H' & _).
  rewrite H in H'. injection H' as <- <- <-. split; [split|assumption].
  - intros ->. destruct (HT HM eq_refl) as (x & Hx & Hx' & HV). exists x. split; [assumption|].
    rewrite !(val_at_ev mn mx d) by assumption. rewrite HE by assumption. unfold upd.
    replace ((s <=? x) && (x <? e)) with true by lia. congruence.
  - intros (x & Hx & HV). destruct chg; auto. now rewrite HF in HV by reflexivity.
Qed.

(** The position returned with an insertion that meets the bounds is the segment
    that now contains it. *)
Lemma C04_position_lemma mn mx d t s e v t' it chg : reach veqb vnull mn mx d t ->
  insert_front veqb t s e v = Ok (t', it, chg) -> (exists x, mn <= x < mx /\ s <= x < e) ->
  snd it = false /\ exists a b, nth_error (segments t') (fst it) = Some (a, b, v) /\ a <= Z.max s mn /\ Z.min e mx <= b.
Proof.
  intros R H HX. apply reach_wf in R.
  assert (~ (s < mn /\ e = mn)) as HN by (destruct HX as (x & HX); lia).
  destruct (insert_all veqb vnull veqb_ok mn mx d t s e v R HN) as (r & (u & it' & chg' & -> & W & _ & _ & _ & _ & HP) & H' & _).
  rewrite H in H'. injection H' as <- <- <-. destruct (HP HX) as (H1 & k & k' & w & H2 & H3 & H4 & H5).
  split; [assumption|]. exists k, k'. repeat split; auto. eapply segments_nth; eauto.
Qed.

Lemma C07_search_tree_lemma mn mx d t t' : reach veqb vnull mn mx d t -> step veqb t OBuild = Ok t' ->
  (forall x, search_tree t' x = search t x /\ search_tree_key t' x = search_key t x) /\
  (forall x, (exists h, search_tree t' x = Ok (Some h)) <-> mn <= x < mx).
Proof.
  intros R H. apply reach_wf in R. destruct (build_tree_ok vnull mn mx d t R) as (u & E & W & EL & EV).
  simpl in H. rewrite E in H. injection H as <-.
  assert (forall x, search u x = search t x /\ search_key u x = search_key t x) as HS.
  { intros x. unfold search, search_key, search_by_key_impl, search_impl, left_leaf, right_leaf, right_idx. now rewrite EL. }
  split.
  - intros x. rewrite (search_tree_eq vnull mn mx d) by assumption.
    rewrite (search_tree_key_eq vnull mn mx d) by assumption. apply HS.
  - intros x. rewrite (search_tree_eq vnull mn mx d) by assumption. split.
    + intros [h Hh]. destruct (Z_le_dec mn x); [destruct (Z_lt_dec x mx)|]; [lia| |];
        rewrite (search_out vnull mn mx d) in Hh by (auto; lia); discriminate.
    + intros Hx. destruct (search_ok vnull mn mx d u x W Hx) as (p & v & ks & ke & -> & _). eauto.
Qed.

Lemma C07_stale_lemma mn mx d t o t' : reach veqb vnull mn mx d t -> step veqb t o = Ok t' -> o <> OBuild ->
  t' <> t -> forall x, search_tree t' x = Ok None /\ search_tree_key t' x = Ok None.
Proof.
  intros R H HO HT x. apply reach_wf in R.
  destruct (step_valid veqb vnull veqb_ok mn mx d t o t' R H HO) as [HE|HE]; [congruence|].
  now apply search_tree_invalid.
Qed.

Lemma C07_valid_lemma mn mx d t : reach veqb vnull mn mx d t ->
  valid_tree t = true -> forall x, search_tree t x = search t x.
Proof. intros R HV x. apply reach_wf in R. now apply (search_tree_eq vnull mn mx d). Qed.

Lemma C07_pool_lemma mn mx d t pool : reach veqb vnull mn mx d t ->
  count_needed_nonleaf_nodes (S (leaf_size t)) (leaf_size t) 0 = Ok pool ->
  (exists r, builder_build (leaf_size t) pool (leaves t) = Ok (Some r)) /\
  forall pool', (pool' < pool)%nat -> builder_build (leaf_size t) pool' (leaves t) = Undef.
Proof. intros R. apply reach_wf in R. apply (pool_exact vnull mn mx vnull). apply R. Qed.

Lemma C08_outside_lemma mn mx d t s e v : reach veqb vnull mn mx d t ->
  (forall x, mn <= x < mx -> ~ (s <= x < e)) -> ~ (s < mn /\ e = mn) ->
  insert_calls_agree t s e v (Ok (t, end_iter t, false)).
Proof.
  intros R HD HN. apply reach_wf in R. pose proof (wf_lt _ _ _ _ _ R) as Hlt.
  destruct (insert_all veqb vnull veqb_ok mn mx d t s e v R HN) as (r & _ & H).
  destruct H as (H1 & H2). unfold insert_calls_agree. replace (Ok (t, end_iter t, false)) with r; [auto|].
  rewrite <- H1. unfold insert_front, insert_segment_impl.
  destruct (left_right _ _ _ _ _ R) as (vl & E1 & E2). rewrite E1, E2. cbn [bind].
  assert (adjust_segment_range mn mx s e = None) as ->; [|reflexivity].
  unfold adjust_segment_range. destruct (e <=? s) eqn:E; [reflexivity|].
  replace ((e <? mn) || (mx <=? s)) with true; [reflexivity|].
  pose proof (HD (Z.max s mn)). lia.
Qed.

Lemma C08_undef_lemma mn mx d t s v : reach veqb vnull mn mx d t -> s < mn -> insert_calls_agree t s mn v Undef.
Proof.
  intros R Hs. apply reach_wf in R. repeat split.
  - now apply (insert_bad veqb vnull mn mx d).
  - now apply (insert_bad veqb vnull mn mx d).
  - now apply (insert_hint_bad veqb vnull mn mx d).
  - intros p _. now apply (insert_hint_bad veqb vnull mn mx d).
Qed.

Lemma C09_equal_lemma mn mx d d' t t' : reach veqb vnull mn mx d t -> reach veqb vnull mn mx d' t' ->
  minimal t -> minimal t' ->
  (fst_eqb veqb t t' = true <-> forall x, val_at t x = val_at t' x).
Proof.
  intros R R' M M'. apply reach_wf in R, R'. rewrite minimal_canon in M, M'. unfold fst_eqb.
  rewrite (leaves_eqb_ok veqb veqb_ok). split.
  - intros E x. unfold val_at, search, search_impl, left_leaf, right_leaf, right_idx. now rewrite E.
  - intros HE. apply (canon_content_eq vnull mn mx d d'); auto. intros x Hx.
    specialize (HE x). rewrite (val_at_ev mn mx d), (val_at_ev mn mx d') in HE by assumption. congruence.
Qed.

(** operator== never equates trees with different content or different bounds. *)
Lemma C09_sound_lemma mn mx d mn' mx' d' t t' : reach veqb vnull mn mx d t -> reach veqb vnull mn' mx' d' t' ->
  fst_eqb veqb t t' = true -> mn = mn' /\ mx = mx' /\ segments t = segments t' /\ forall x, search t x = search t' x.
Proof.
  intros R R' E. apply reach_wf in R, R'. unfold fst_eqb in E. apply (leaves_eqb_ok veqb veqb_ok) in E.
  destruct (left_right _ _ _ _ _ R) as (vl & E1 & E2). destruct (left_right _ _ _ _ _ R') as (vl' & E1' & E2').
  assert (left_leaf t = left_leaf t') as EL by (unfold left_leaf; now rewrite E).
  assert (right_leaf t = right_leaf t') as ER by (unfold right_leaf, right_idx; now rewrite E).
  rewrite E1, E1' in EL. rewrite E2, E2' in ER. injection EL as -> _. injection ER as ->.
  repeat split.
  - unfold segments. now rewrite E.
  - intros x. unfold search, search_impl, left_leaf, right_leaf, right_idx. now rewrite E.
Qed.

Lemma C09_copy_lemma (t : fst_t) : fst_eqb veqb (fst_copy t) t = true /\ segments (fst_copy t) = segments t /\
  forall x, search (fst_copy t) x = search t x.
Proof.
  repeat split. unfold fst_eqb. now apply (leaves_eqb_ok veqb veqb_ok).
Qed.

Lemma C10_hint_value_lemma mn mx d t pos x : reach veqb vnull mn mx d t ->
  match pos with Some p => (p < leaf_size t)%nat | None => True end -> search_hint t pos x = search t x.
Proof. intros R. apply reach_wf in R. now apply (search_hint_eq vnull mn mx d). Qed.

Lemma C10_hint_key_lemma mn mx d t p x k w : reach veqb vnull mn mx d t ->
  nth_error (leaves t) p = Some (k, w) -> k <= x -> search_key_hint t (Some p) x = search_key t x.
Proof.
  intros R HP Hk. apply reach_wf in R.
  destruct (Z_le_dec mn x); [destruct (Z_lt_dec x mx)|].
  - destruct (search_by_key_at vnull mn mx d t x p k w R ltac:(lia) HP Hk) as (q & v & ks & ke & E & HL).
    destruct (search_key_ok vnull mn mx d t x R ltac:(lia)) as (q' & v' & ks' & ke' & E' & HL').
    unfold search_key_hint. rewrite E, E'.
    now destruct (leaf_at_unique _ _ _ _ _ _ _ _ _ _ (proj1 (proj1 R)) HL HL') as (-> & _).
  - unfold search_key_hint, search_key. rewrite !(search_key_out vnull mn mx d) by (auto; lia). reflexivity.
  - unfold search_key_hint, search_key. rewrite !(search_key_out vnull mn mx d) by (auto; lia). reflexivity.
Qed.

Lemma C10_key_is_search_lemma mn mx d t x : reach veqb vnull mn mx d t ->
  search_key t x = let* h := search t x in Ok (match h with Some (p, _, _, _) => Some p | None => None end).
Proof.
  intros R. apply reach_wf in R. destruct (Z_le_dec mn x); [destruct (Z_lt_dec x mx)|].
  - destruct (search_ok vnull mn mx d t x R ltac:(lia)) as (q & v & ks & ke & E & HL & _).
    destruct (search_key_ok vnull mn mx d t x R ltac:(lia)) as (q' & v' & ks' & ke' & E' & HL').
    rewrite E, E'. cbn [bind]. now destruct (leaf_at_unique _ _ _ _ _ _ _ _ _ _ (proj1 (proj1 R)) HL HL') as (-> & _).
  - rewrite (search_out vnull mn mx d) by (auto; lia). apply (search_key_out vnull mn mx d); auto; lia.
  - rewrite (search_out vnull mn mx d) by (auto; lia). apply (search_key_out vnull mn mx d); auto; lia.
Qed.
End Bridge.

(** * Theorems *)

(** Concrete tree used to show that the hypotheses below can be met: bounds [0,100),
    five segments, a built search tree. *)
Definition ex_ops : list (@op Z) :=
  [OFront 10 20 1; OBack 15 40 2; OHint (Some 1%nat) 60 80 3; OShiftR 30 5 false; OShiftL 12 14; OBuild].
Definition ex_tree : @fst_t Z :=
  match run Z.eqb (fst_new 0 0 100 0) ex_ops with Ok t => t | _ => fst_new 0 0 100 0 end.
Lemma Zeqb_ok : eqb_ok Z.eqb.
Proof. intros a b. apply Z.eqb_eq. Qed.
Example ex_reach : reach Z.eqb 0 0 100 0 ex_tree.
Proof. split; [lia|]. exists ex_ops. vm_compute. reflexivity. Qed.
Example ex_segments : segments ex_tree = [(0, 10, 0); (10, 13, 1); (13, 43, 2); (43, 63, 0); (63, 83, 3); (83, 100, 0)].
Proof. vm_compute. reflexivity. Qed.
Example ex_minimal : minimal ex_tree.
Proof. unfold minimal. rewrite ex_segments. simpl. intuition congruence. Qed.
Example ex_reach2 : reach Z.eqb 0 0 100 0 (fst_new 0 0 100 0).
Proof. split; [lia|]. now exists []. Qed.

(** C01: insertion by any of the three calls overwrites exactly the given interval. *)
Theorem C01_insert_pointwise : forall (V : Type) (veqb : V -> V -> bool) (vnull : V), eqb_ok veqb ->
  forall mn mx d t s e v, reach veqb vnull mn mx d t -> ~ (s < mn /\ e = mn) ->
  exists t' it chg, insert_calls_agree veqb t s e v (Ok (t', it, chg)) /\
    forall x, mn <= x < mx -> val_at t' x = overwrite (val_at t) s e v x.
Proof. exact @C01_insert_pointwise_lemma. Qed.
Example C01_insert_pointwise_ex :
  exists t' it chg, insert_calls_agree Z.eqb ex_tree 5 50 7 (Ok (t', it, chg)) /\ chg = true.
Proof.
  destruct (C01_insert_pointwise Z Z.eqb 0 Zeqb_ok 0 100 0 ex_tree 5 50 7 ex_reach ltac:(lia)) as (t' & it & chg & H & _).
  exists t', it, chg. split; [exact H|]. destruct H as [H _]. vm_compute in H. now injection H.
Qed.

(** C01, C05, C06 over whole histories: after any sequence of calls that runs to its end, a search
    returns the prescribed value with the bounds of an interval on which the content is constant. *)
Theorem C01_history : forall (V : Type) (veqb : V -> V -> bool) (vnull : V), eqb_ok veqb ->
  forall mn mx d ops t, mn < mx -> run veqb (fst_new vnull mn mx d) ops = Ok t -> forall x,
  (mn <= x < mx -> exists p ks ke, search t x = Ok (Some (p, content mn mx d (fun _ => d) ops x, ks, ke)) /\
     ks <= x < ke /\ forall y, ks <= y < ke -> mn <= y < mx /\ content mn mx d (fun _ => d) ops y = content mn mx d (fun _ => d) ops x) /\
  (~ (mn <= x < mx) -> search t x = Ok None).
Proof. exact @C01_history_lemma. Qed.
Example C01_history_ex : run Z.eqb (fst_new 0 0 100 0) ex_ops = Ok ex_tree /\
  map (content 0 100 0 (fun _ => 0) ex_ops) [9; 10; 12; 13; 42; 43; 63] = [0; 1; 1; 2; 2; 0; 3].
Proof. vm_compute. auto. Qed.

(** C01: exactly the calls with the stated precondition have defined behaviour. *)
Theorem C01_defined_calls : forall (V : Type) (veqb : V -> V -> bool) (vnull : V), eqb_ok veqb ->
  forall mn mx d t o, reach veqb vnull mn mx d t ->
  (exists t', step veqb t o = Ok t' /\ reach veqb vnull mn mx d t') <-> proper_call mn t o.
Proof. exact @C01_total_lemma. Qed.
Example C01_defined_calls_ex : proper_call 0 ex_tree (OHint (Some 3%nat) (-5) 33 4) /\ ~ proper_call 0 ex_tree (OFront (-5) 0 4).
Proof. vm_compute. split; [split; [intros [_ H]; discriminate|lia]|]. intros H. apply H. auto. Qed.

(** C02: the listed segments always tile [min,max) and agree with search. *)
Theorem C02_segments_tile : forall (V : Type) (veqb : V -> V -> bool) (vnull : V), eqb_ok veqb ->
  forall mn mx d t, reach veqb vnull mn mx d t ->
  tiles mn mx (segments t) /\
  (forall s e v x, In (s, e, v) (segments t) -> s <= x < e -> exists p, search t x = Ok (Some (p, v, s, e))) /\
  (forall x p v s e, search t x = Ok (Some (p, v, s, e)) -> In (s, e, v) (segments t) /\ s <= x < e).
Proof. exact @C02_tiles_lemma. Qed.
Example C02_segments_tile_ex : In (13, 43, 2) (segments ex_tree) /\ search ex_tree 20 = Ok (Some (2%nat, 2, 13, 43)).
Proof. vm_compute. auto 10. Qed.

(** C02: without left shifts neighbouring segments never share a value. *)
Theorem C02_minimal : forall (V : Type) (veqb : V -> V -> bool) (vnull : V), eqb_ok veqb ->
  forall mn mx d ops t, mn < mx -> run veqb (fst_new vnull mn mx d) ops = Ok t -> no_shift_left ops -> minimal t.
Proof. exact @C02_minimal_lemma. Qed.
Example C02_minimal_ex : exists t,
  run Z.eqb (fst_new 0 0 100 0) [OFront 10 20 1; OBack 20 40 1; OFront 30 50 0; OShiftR 10 7 true] = Ok t /\
  no_shift_left [OFront 10 20 1; OBack 20 40 1; OFront 30 50 0; OShiftR 10 7 true] /\
  segments t = [(0, 10, 0); (10, 37, 1); (37, 100, 0)].
Proof.
  eexists. split; [vm_compute; reflexivity|]. split; [|vm_compute; reflexivity].
  intros o [<-|[<-|[<-|[<-|[]]]]]; exact I.
Qed.

(** C02, with left shifts: each call keeps the tree minimal, except one exact case. *)
Theorem C02_minimal_step : forall (V : Type) (veqb : V -> V -> bool) (vnull : V), eqb_ok veqb ->
  forall mn mx d t o t', reach veqb vnull mn mx d t -> step veqb t o = Ok t' -> minimal t ->
  match o with
  | OShiftL s e => (minimal t' <-> ~ (mn < s /\ s < e /\ e = mx /\ val_at t (s - 1) = Some d /\ val_at t (mx - 1) <> Some d))
  | _ => minimal t'
  end.
Proof. exact @C02_minimal_step_lemma. Qed.
Example C02_minimal_step_ex : exists t', step Z.eqb ex_tree (OShiftL 20 90) = Ok t' /\ segments t' = [(0, 10, 0); (10, 13, 1); (13, 20, 2); (20, 100, 0)].
Proof. eexists. split; vm_compute; reflexivity. Qed.

(** C03: the three insertion calls agree, with every hint. *)
Theorem C03_insertions_agree : forall (V : Type) (veqb : V -> V -> bool) (vnull : V), eqb_ok veqb ->
  forall mn mx d t s e v, reach veqb vnull mn mx d t -> exists r, insert_calls_agree veqb t s e v r.
Proof. exact @C03_agree_lemma. Qed.
Example C03_insertions_agree_ex : insert_front Z.eqb ex_tree 13 63 4 = insert_hint Z.eqb ex_tree (Some 4%nat) 13 63 4 /\
  exists t' it, insert_front Z.eqb ex_tree 13 63 4 = Ok (t', it, true).
Proof. split; [vm_compute; reflexivity|]. do 2 eexists. vm_compute. reflexivity. Qed.

(** C04: on a minimal tree the changed flag is true exactly when some key changed. *)
Theorem C04_changed_flag : forall (V : Type) (veqb : V -> V -> bool) (vnull : V), eqb_ok veqb ->
  forall mn mx d t s e v t' it chg, reach veqb vnull mn mx d t -> minimal t ->
  insert_front veqb t s e v = Ok (t', it, chg) ->
  (chg = true <-> exists x, mn <= x < mx /\ val_at t' x <> val_at t x) /\ (chg = false -> t' = t).
Proof. exact @C04_changed_lemma. Qed.
Example C04_changed_flag_ex : (exists t' it, insert_front Z.eqb ex_tree 13 30 2 = Ok (t', it, false)) /\
  (exists t' it, insert_front Z.eqb ex_tree 12 30 2 = Ok (t', it, true)).
Proof. split; do 2 eexists; vm_compute; reflexivity. Qed.

(** C04: the returned position is the segment that now holds the inserted one. *)
Theorem C04_returned_position : forall (V : Type) (veqb : V -> V -> bool) (vnull : V), eqb_ok veqb ->
  forall mn mx d t s e v t' it chg, reach veqb vnull mn mx d t ->
  insert_front veqb t s e v = Ok (t', it, chg) -> (exists x, mn <= x < mx /\ s <= x < e) ->
  snd it = false /\ exists a b, nth_error (segments t') (fst it) = Some (a, b, v) /\ a <= Z.max s mn /\ Z.min e mx <= b.
Proof. exact @C04_position_lemma. Qed.
Example C04_returned_position_ex : exists t', insert_front Z.eqb ex_tree 43 50 2 = Ok (t', (2%nat, false), true) /\
  nth_error (segments t') 2 = Some (13, 50, 2).
Proof. eexists. split; vm_compute; reflexivity. Qed.

(** C04 fails on a tree that is not minimal (a left shift can leave one behind): the flag is
    true although no key changed. *)
Theorem C04_changed_flag_nonminimal_refuted : exists t t' it, reach Z.eqb 0 0 20 0 t /\
  insert_front Z.eqb t 5 20 0 = Ok (t', it, true) /\ forall x, val_at t' x = val_at t x.
Proof.
  destruct (run Z.eqb (fst_new 0 0 20 0) [OFront 5 10 1; OFront 10 20 2; OShiftL 5 20]) as [t| |] eqn:E; try discriminate.
  exists t. destruct (insert_front Z.eqb t 5 20 0) as [[[t' it] chg]| |] eqn:E'; [|vm_compute in E; injection E as <-; discriminate..].
  exists t', it. assert (reach Z.eqb 0 0 20 0 t) as R by (split; [lia|eauto]). split; [assumption|].
  split; [vm_compute in E; injection E as <-; vm_compute in E'; injection E' as <- <- <-; reflexivity|].
  assert (reach Z.eqb 0 0 20 0 t') as R'.
  { split; [lia|]. exists ([OFront 5 10 1; OFront 10 20 2; OShiftL 5 20] ++ [OFront 5 20 0]).
    vm_compute in E; injection E as <-; vm_compute in E'; injection E' as <- <- <-. vm_compute. reflexivity. }
  intros x. apply reach_wf in R, R'; try exact Zeqb_ok.
  destruct (Z_le_dec 0 x); [destruct (Z_lt_dec x 20)|].
  - rewrite (val_at_ev 0 0 20 0 t' x), (val_at_ev 0 0 20 0 t x) by (auto; lia). f_equal.
    vm_compute in E; injection E as <-; vm_compute in E'; injection E' as <- <- <-. cbn [leaves].
    rewrite !ev_cons. rewrite !ev_nil. simpl fst; simpl snd. destruct (0 <=? x), (5 <=? x), (20 <=? x); reflexivity.
  - rewrite !(val_at_out 0 0 20 0) by (auto; lia). reflexivity.
  - rewrite !(val_at_out 0 0 20 0) by (auto; lia). reflexivity.
Qed.

(** C05: shift_left deletes an interval; other arguments change nothing. *)
Theorem C05_shift_left : forall (V : Type) (veqb : V -> V -> bool) (vnull : V), eqb_ok veqb ->
  forall mn mx d t s e, reach veqb vnull mn mx d t ->
  exists t', shift_left veqb t s e = Ok t' /\
   (mn <= s < e /\ e <= mx -> forall x, mn <= x < mx ->
      val_at t' x = if x <? s then val_at t x else if x <? mx - (e - s) then val_at t (x + (e - s)) else Some d) /\
   (~ (mn <= s < e /\ e <= mx) -> t' = t).
Proof.
  intros V veqb vnull Hok mn mx d t s e R. apply reach_wf in R; [|exact Hok].
  destruct ((mn <=? s) && (s <? e) && (e <=? mx)) eqn:E.
  - destruct (shift_left_spec veqb vnull Hok mn mx d t s e R) as (u & HR & W & HE & _); [lia..|].
    exists u. split; [assumption|]. split; [|lia]. intros _ x Hx.
    rewrite (val_at_ev vnull mn mx d) by assumption. rewrite HE by assumption. unfold spec_shl.
    destruct (x <? s) eqn:E1; [now rewrite (val_at_ev vnull mn mx d)|].
    destruct (x <? mx - (e - s)) eqn:E2; [|reflexivity]. rewrite (val_at_ev vnull mn mx d) by (auto; lia). reflexivity.
  - exists t. split; [apply (shift_left_noop veqb vnull mn mx d); [assumption|lia]|]. split; [lia|reflexivity].
Qed.
Example C05_shift_left_ex : exists t', shift_left Z.eqb ex_tree 11 70 = Ok t' /\ segments t' = [(0, 10, 0); (10, 11, 1); (11, 24, 3); (24, 100, 0)].
Proof. eexists. split; vm_compute; reflexivity. Qed.

(** C06: shift_right opens an interval; other arguments change nothing. *)
Theorem C06_shift_right : forall (V : Type) (veqb : V -> V -> bool) (vnull : V), eqb_ok veqb ->
  forall mn mx d t pos n skip, reach veqb vnull mn mx d t ->
  exists t', shift_right veqb t pos n skip = Ok t' /\
   (0 < n /\ mn <= pos < mx -> forall x, mn <= x < mx ->
      val_at t' x = if x <? pos then val_at t x
                    else if x <? pos + n then
                      (if skip then val_at t pos else if pos =? mn then Some d else val_at t (pos - 1))
                    else val_at t (x - n)) /\
   (~ (0 < n /\ mn <= pos < mx) -> t' = t).
Proof.
  intros V veqb vnull Hok mn mx d t pos n skip R. apply reach_wf in R; [|exact Hok].
  destruct ((0 <? n) && (mn <=? pos) && (pos <? mx)) eqn:E.
  - destruct (shift_right_spec veqb vnull Hok mn mx d t pos n skip R) as (u & HR & W & HE & _); [lia..|].
    exists u. split; [assumption|]. split; [|lia]. intros _ x Hx.
    rewrite (val_at_ev vnull mn mx d) by assumption. rewrite HE by assumption. unfold spec_shr.
    destruct (x <? pos) eqn:E1; [now rewrite (val_at_ev vnull mn mx d)|].
    destruct (x <? pos + n) eqn:E2; [|rewrite (val_at_ev vnull mn mx d) by (auto; lia); reflexivity].
    destruct skip; [rewrite (val_at_ev vnull mn mx d) by (auto; lia); reflexivity|].
    destruct (pos =? mn) eqn:E3; [reflexivity|]. rewrite (val_at_ev vnull mn mx d) by (auto; lia). reflexivity.
  - exists t. split; [apply (shift_right_noop veqb vnull mn mx d); [assumption|lia]|]. split; [lia|reflexivity].
Qed.
Example C06_shift_right_ex : (exists t', shift_right Z.eqb ex_tree 63 30 false = Ok t' /\
    segments t' = [(0, 10, 0); (10, 13, 1); (13, 43, 2); (43, 93, 0); (93, 100, 3)]) /\
  (exists t', shift_right Z.eqb ex_tree 63 10 true = Ok t' /\
    segments t' = [(0, 10, 0); (10, 13, 1); (13, 43, 2); (43, 63, 0); (63, 93, 3); (93, 100, 0)]).
Proof. split; eexists; split; vm_compute; reflexivity. Qed.

(** C07: right after build_tree, search_tree agrees with search at every key. *)
Theorem C07_search_tree : forall (V : Type) (veqb : V -> V -> bool) (vnull : V), eqb_ok veqb ->
  forall mn mx d t t', reach veqb vnull mn mx d t -> step veqb t OBuild = Ok t' ->
  (forall x, search_tree t' x = search t x /\ search_tree_key t' x = search_key t x) /\
  (forall x, (exists h, search_tree t' x = Ok (Some h)) <-> mn <= x < mx).
Proof. exact @C07_search_tree_lemma. Qed.
Example C07_search_tree_ex : exists t', step Z.eqb ex_tree OBuild = Ok t' /\ search_tree t' 70 = Ok (Some (4%nat, 3, 63, 83)).
Proof. eexists. split; vm_compute; reflexivity. Qed.

(** C07: whenever the tree reports itself valid, search_tree agrees with search. *)
Theorem C07_valid_tree : forall (V : Type) (veqb : V -> V -> bool) (vnull : V), eqb_ok veqb ->
  forall mn mx d t, reach veqb vnull mn mx d t -> valid_tree t = true -> forall x, search_tree t x = search t x.
Proof. exact @C07_valid_lemma. Qed.
Example C07_valid_tree_ex : valid_tree ex_tree = true.
Proof. vm_compute. reflexivity. Qed.

(** C07: every other call that modifies the tree makes search_tree fail until the next build_tree. *)
Theorem C07_stale_tree : forall (V : Type) (veqb : V -> V -> bool) (vnull : V), eqb_ok veqb ->
  forall mn mx d t o t', reach veqb vnull mn mx d t -> step veqb t o = Ok t' -> o <> OBuild ->
  t' <> t -> forall x, search_tree t' x = Ok None /\ search_tree_key t' x = Ok None.
Proof. exact @C07_stale_lemma. Qed.
Example C07_stale_tree_ex : exists t', step Z.eqb ex_tree (OShiftL 20 90) = Ok t' /\ t' <> ex_tree /\ search_tree t' 5 = Ok None.
Proof. eexists. split; [vm_compute; reflexivity|]. split; [|vm_compute; reflexivity]. vm_compute. discriminate. Qed.

(** C07: the node pool that build_tree reserves has exactly the size that the construction uses. *)
Theorem C07_node_pool : forall (V : Type) (veqb : V -> V -> bool) (vnull : V), eqb_ok veqb ->
  forall mn mx d t pool, reach veqb vnull mn mx d t ->
  count_needed_nonleaf_nodes (S (leaf_size t)) (leaf_size t) 0 = Ok pool ->
  (exists r, builder_build (leaf_size t) pool (leaves t) = Ok (Some r)) /\
  forall pool', (pool' < pool)%nat -> builder_build (leaf_size t) pool' (leaves t) = Undef.
Proof. exact @C07_pool_lemma. Qed.
Example C07_node_pool_ex : leaf_size ex_tree = 7%nat /\ count_needed_nonleaf_nodes (S (leaf_size ex_tree)) (leaf_size ex_tree) 0 = Ok 7%nat.
Proof. vm_compute. auto. Qed.

(** C08: a segment that misses the bounds is ignored, unless it ends exactly at the lower bound. *)
Theorem C08_outside_ignored_partial : forall (V : Type) (veqb : V -> V -> bool) (vnull : V), eqb_ok veqb ->
  forall mn mx d t s e v, reach veqb vnull mn mx d t ->
  (forall x, mn <= x < mx -> ~ (s <= x < e)) -> ~ (s < mn /\ e = mn) ->
  insert_calls_agree veqb t s e v (Ok (t, end_iter t, false)).
Proof. exact @C08_outside_lemma. Qed.
Example C08_outside_ignored_ex : (forall x, 0 <= x < 100 -> ~ (100 <= x < 120)) /\ ~ (100 < 0 /\ 120 = 0) /\
  insert_front Z.eqb ex_tree 100 120 9 = Ok (ex_tree, end_iter ex_tree, false).
Proof. split; [lia|]. split; [lia|]. vm_compute. reflexivity. Qed.

(** C08 is false for a segment that ends exactly at the lower bound: every insertion call runs
    off the leaf list. *)
Theorem C08_outside_ignored_refuted : forall (V : Type) (veqb : V -> V -> bool) (vnull : V), eqb_ok veqb ->
  forall mn mx d t s v, reach veqb vnull mn mx d t -> s < mn -> insert_calls_agree veqb t s mn v Undef.
Proof. exact @C08_undef_lemma. Qed.
Example C08_outside_ignored_refuted_ex : insert_front Z.eqb ex_tree (-3) 0 9 = Undef.
Proof. vm_compute. reflexivity. Qed.

(** C09: minimal trees are equal exactly when they agree at every key. *)
Theorem C09_equality_partial : forall (V : Type) (veqb : V -> V -> bool) (vnull : V), eqb_ok veqb ->
  forall mn mx d d' t t', reach veqb vnull mn mx d t -> reach veqb vnull mn mx d' t' ->
  minimal t -> minimal t' ->
  (fst_eqb veqb t t' = true <-> forall x, val_at t x = val_at t' x).
Proof. exact @C09_equal_lemma. Qed.
Example C09_equality_ex : exists t, run Z.eqb (fst_new 0 0 100 5)
    [OBack 0 100 0; OFront 10 13 1; OFront 13 43 2; OFront 63 83 3] = Ok t /\ fst_eqb Z.eqb t ex_tree = true.
Proof. eexists. split; vm_compute; reflexivity. Qed.

(** C09: trees that compare equal have the same bounds, segments and search results. *)
Theorem C09_equality_sound : forall (V : Type) (veqb : V -> V -> bool) (vnull : V), eqb_ok veqb ->
  forall mn mx d mn' mx' d' t t', reach veqb vnull mn mx d t -> reach veqb vnull mn' mx' d' t' ->
  fst_eqb veqb t t' = true -> mn = mn' /\ mx = mx' /\ segments t = segments t' /\ forall x, search t x = search t' x.
Proof. exact @C09_sound_lemma. Qed.
Example C09_equality_sound_ex : fst_eqb Z.eqb ex_tree (fst_copy ex_tree) = true.
Proof. vm_compute. reflexivity. Qed.

(** C09: a copy equals its source. *)
Theorem C09_copy : forall (V : Type) (veqb : V -> V -> bool), eqb_ok veqb ->
  forall t, fst_eqb veqb (fst_copy t) t = true /\ segments (fst_copy t) = segments t /\
  forall x, search (fst_copy t) x = search t x.
Proof. exact @C09_copy_lemma. Qed.

(** C09 is false after a left shift that reaches the upper bound: same content at every key,
    yet operator== says different. *)
Theorem C09_equality_refuted : exists t t', reach Z.eqb 0 0 20 0 t /\ reach Z.eqb 0 0 20 0 t' /\
  (forall x, val_at t x = val_at t' x) /\ fst_eqb Z.eqb t t' = false.
Proof.
  destruct (run Z.eqb (fst_new 0 0 20 0) [OFront 5 10 1; OFront 10 20 2; OShiftL 5 20]) as [t| |] eqn:E; try discriminate.
  exists t, (fst_new 0 0 20 0).
  assert (reach Z.eqb 0 0 20 0 t) as R by (split; [lia|eauto]).
  assert (reach Z.eqb 0 0 20 0 (fst_new 0 0 20 0)) as R' by (split; [lia|now exists []]).
  repeat split; auto; try lia; try apply R; try apply R'.
  - intros x. apply reach_wf in R, R'; try exact Zeqb_ok.
    destruct (Z_le_dec 0 x); [destruct (Z_lt_dec x 20)|].
    + rewrite (val_at_ev 0 0 20 0 t x), (val_at_ev 0 0 20 0 (fst_new 0 0 20 0) x) by (auto; lia). f_equal.
      vm_compute in E; injection E as <-. unfold fst_new. cbn [leaves].
      rewrite !ev_cons. rewrite !ev_nil. simpl fst; simpl snd. destruct (0 <=? x), (5 <=? x), (20 <=? x); reflexivity.
    + rewrite !(val_at_out 0 0 20 0) by (auto; lia). reflexivity.
    + rewrite !(val_at_out 0 0 20 0) by (auto; lia). reflexivity.
  - vm_compute in E; injection E as <-. vm_compute. reflexivity.
Qed.

(** C10: the hinted search that returns a value ignores the hint's position. *)
Theorem C10_hinted_value_search : forall (V : Type) (veqb : V -> V -> bool) (vnull : V), eqb_ok veqb ->
  forall mn mx d t pos x, reach veqb vnull mn mx d t ->
  match pos with Some p => (p < leaf_size t)%nat | None => True end -> search_hint t pos x = search t x.
Proof. exact @C10_hint_value_lemma. Qed.
Example C10_hinted_value_search_ex : search_hint ex_tree (Some 5%nat) 20 = Ok (Some (2%nat, 2, 13, 43)).
Proof. vm_compute. reflexivity. Qed.

(** C10: the hinted search that returns a position agrees when the hint is not past the key. *)
Theorem C10_hinted_key_search_partial : forall (V : Type) (veqb : V -> V -> bool) (vnull : V), eqb_ok veqb ->
  forall mn mx d t p x k w, reach veqb vnull mn mx d t ->
  nth_error (leaves t) p = Some (k, w) -> k <= x -> search_key_hint t (Some p) x = search_key t x.
Proof. exact @C10_hint_key_lemma. Qed.
Example C10_hinted_key_search_ex : nth_error (leaves ex_tree) 1 = Some (10, 1) /\ search_key_hint ex_tree (Some 1%nat) 70 = Ok (Some 4%nat).
Proof. vm_compute. auto. Qed.

(** C10: the unhinted position search finds the position that search reports. *)
Theorem C10_position_search : forall (V : Type) (veqb : V -> V -> bool) (vnull : V), eqb_ok veqb ->
  forall mn mx d t x, reach veqb vnull mn mx d t ->
  search_key t x = let* h := search t x in Ok (match h with Some (p, _, _, _) => Some p | None => None end).
Proof. exact @C10_key_is_search_lemma. Qed.
Example C10_position_search_ex : search_key ex_tree 70 = Ok (Some 4%nat).
Proof. vm_compute. reflexivity. Qed.

(** C10 is false for the position search: with a hint past the key, or without a position, a key
    inside the bounds is reported as not found. *)
Theorem C10_hinted_key_search_refuted : exists t p x, reach Z.eqb 0 0 100 0 t /\ (p < leaf_size t)%nat /\
  0 <= x < 100 /\ search_key_hint t (Some p) x = Ok None /\ search_key_hint t None x = Ok None /\
  search_key t x = Ok (Some 1%nat).
Proof.
  exists ex_tree, 4%nat, 11. split; [exact ex_reach|]. split; [vm_compute; lia|]. split; [lia|].
  vm_compute. auto.
Qed.

(** One query for all the theorems of this file. *)
Definition FstProps_theorems :=
  (@C01_insert_pointwise, @C01_history, @C01_defined_calls, @C02_segments_tile,
   @C02_minimal, @C02_minimal_step, @C03_insertions_agree, @C04_changed_flag,
   @C04_returned_position, @C04_changed_flag_nonminimal_refuted, @C05_shift_left, @C06_shift_right,
   @C07_search_tree, @C07_valid_tree, @C07_stale_tree, @C07_node_pool,
   @C08_outside_ignored_partial, @C08_outside_ignored_refuted, @C09_equality_partial, @C09_equality_sound,
   @C09_copy, @C09_equality_refuted, @C10_hinted_value_search, @C10_hinted_key_search_partial,
   @C10_position_search, @C10_hinted_key_search_refuted).
Print Assumptions FstProps_theorems.
