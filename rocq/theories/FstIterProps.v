(** Property C79: the iterators and the bounds of mdds::flat_segment_tree.

    The theorems use the public calls of the model, the segments that C02 relates to
    search, and the three definitions of the section below. *)
From Coq Require Import List ZArith Lia Bool ZifyBool ZifyNat.
From Verif Require Import Base FstModel FstProofs FstProofs2 FstProofs3 FstProofs4 FstProps FstIter.
Import ListNotations.
Open Scope Z_scope.

(** * Specification *)

(** The loop [for (; it != stop; ++it) show( *it )] shows the values [l]. *)
Fixpoint walks {I X : Type} (step : I -> res I) (show : I -> res X) (eqb : I -> I -> bool) (stop : I)
  (l : list X) (it : I) : Prop :=
  match l with
  | [] => eqb it stop = true
  | x :: l => eqb it stop = false /\ show it = Ok x /\ exists it', step it = Ok it' /\ walks step show eqb stop l it'
  end.
(** The loop [while (it != first) show( *--it )] shows the values [l]. *)
Fixpoint walks_back {I X : Type} (back : I -> res I) (show : I -> res X) (eqb : I -> I -> bool) (first : I)
  (l : list X) (it : I) : Prop :=
  match l with
  | [] => eqb it first = true
  | x :: l => eqb it first = false /\ exists it', back it = Ok it' /\ show it' = Ok x /\ walks_back back show eqb first l it'
  end.
(** What the iterators over the keys must show: the start of each segment with its
    value, then the upper bound with the default value of the value type. *)
Definition key_entries {V : Type} (mx : Z) (vnull : V) (l : list (Z * Z * V)) : list (Z * V) :=
  map (fun s => (fst (fst s), snd s)) l ++ [(mx, vnull)].

(** * Proofs *)
Section P.
Context {V : Type}.
Variable veqb : V -> V -> bool.
Variable vnull : V.
Hypothesis veqb_ok : eqb_ok veqb.
Notation fst_t := (@fst_t V).
Notation it_show := (@it_show V).

Lemma onat_refl a : onat_eqb a a = true.
Proof. destruct a; simpl; [apply Nat.eqb_refl|reflexivity]. Qed.
Lemma it_refl a : it_eqb a a = true.
Proof. unfold it_eqb. rewrite !onat_refl. now destruct (l_end a). Qed.

Lemma wf_shape mn mx d (t : fst_t) : wf vnull mn mx d t ->
  exists r, right_idx t = S r /\ length (leaves t) = S (S r).
Proof.
  intros ((_ & v0 & X & E) & _). unfold right_idx. rewrite E. simpl. rewrite app_length. simpl.
  exists (length X). lia.
Qed.

Lemma entries_eq mx (L : list (Z * V)) X : L = X ++ [(mx, vnull)] ->
  key_entries mx vnull (segments_of L) = L.
Proof.
  intros ->. unfold key_entries. induction X as [|[k v] X IH]; [reflexivity|].
  destruct X as [|[k1 v1] X]; [reflexivity|].
  change (segments_of (((k, v) :: (k1, v1) :: X) ++ [(mx, vnull)])) with
    ((k, k1, v) :: segments_of (((k1, v1) :: X) ++ [(mx, vnull)])).
  cbn [map fst snd]. rewrite <- app_comm_cons. rewrite IH. reflexivity.
Qed.

Lemma skipn_nth {X} (l : list X) p x : nth_error l p = Some x -> skipn p l = x :: skipn (S p) l.
Proof.
  revert p; induction l as [|y l IH]; intros [|p] H; try discriminate; simpl in *.
  - now injection H as ->.
  - now apply IH.
Qed.
Lemma firstn_nth {X} (l : list X) p x : nth_error l p = Some x -> firstn (S p) l = firstn p l ++ [x].
Proof.
  revert p; induction l as [|y l IH]; intros [|p] H; try discriminate; simpl in *.
  - now injection H as ->.
  - f_equal. now apply IH.
Qed.
Lemma nth_lt {X} (l : list X) p : (p < length l)%nat -> exists x, nth_error l p = Some x.
Proof. intros H. destruct (nth_error l p) eqn:E; eauto. apply nth_error_None in E. lia. Qed.

Lemma walk_fwd db (t : fst_t) r : right_idx t = r -> length (leaves t) = S r ->
  forall k p, (p + k = r)%nat ->
  walks (it_inc true t) (it_show t) it_eqb (it_last true db t) (skipn p (leaves t)) (LIt (Some db) (Some p) false).
Proof.
  intros HR HL. induction k as [|k IH]; intros p Hp; destruct (nth_lt (leaves t) p ltac:(lia)) as (x & E);
    rewrite (skipn_nth _ _ _ E); cbn [walks].
  - split; [unfold it_eqb, it_last; simpl; now rewrite andb_false_r|].
    split; [unfold it_show; simpl; now rewrite E|].
    exists (LIt (Some db) (Some p) true). split.
    + unfold it_inc. simpl. replace (p =? right_idx t)%nat with true by lia. reflexivity.
    + rewrite skipn_all2 by lia. replace p with (right_idx t) by lia. apply it_refl.
  - split; [unfold it_eqb, it_last; simpl; now rewrite andb_false_r|].
    split; [unfold it_show; simpl; now rewrite E|].
    exists (LIt (Some db) (Some (S p)) false). split; [|apply IH; lia].
    unfold it_inc, next_of. cbn [l_db l_pos l_end]. replace (p =? right_idx t)%nat with false by lia.
    replace (p <? length (leaves t))%nat with true by lia. replace (S p <? length (leaves t))%nat with true by lia.
    reflexivity.
Qed.

Lemma walk_rev db (t : fst_t) : forall p, (p < length (leaves t))%nat ->
  walks (it_inc false t) (it_show t) it_eqb (it_last false db t) (rev (firstn (S p) (leaves t))) (LIt (Some db) (Some p) false).
Proof.
  induction p as [|p IH]; intros Hp; destruct (nth_lt (leaves t) _ Hp) as (x & E);
    rewrite (firstn_nth _ _ _ E), rev_app_distr; cbn [rev app walks].
  - split; [unfold it_eqb, it_last; simpl; apply andb_false_r|].
    split; [unfold it_show; simpl in *; now rewrite E|].
    exists (LIt (Some db) (Some 0%nat) true). split; [reflexivity|]. apply it_refl.
  - split; [unfold it_eqb, it_last; simpl; apply andb_false_r|].
    split; [unfold it_show; cbn [l_pos]; now rewrite E|].
    exists (LIt (Some db) (Some p) false). split; [|apply IH; lia].
    unfold it_inc, prev_of. cbn [l_db l_pos l_end Nat.eqb].
    replace (S p <? length (leaves t))%nat with true by lia. reflexivity.
Qed.

(** Going back: from a position that shows [p]. *)
Lemma back_fwd db (t : fst_t) : forall p, (p < length (leaves t))%nat ->
  walks_back (it_dec true t) (it_show t) it_eqb (it_first true db t) (rev (firstn p (leaves t))) (LIt (Some db) (Some p) false).
Proof.
  induction p as [|p IH]; intros Hp.
  - apply it_refl.
  - destruct (nth_lt (leaves t) p ltac:(lia)) as (x & E). rewrite (firstn_nth _ _ _ E), rev_app_distr.
    cbn [rev app walks_back]. split; [unfold it_eqb, it_first; simpl; now rewrite andb_false_r|].
    exists (LIt (Some db) (Some p) false). split; [|split; [unfold it_show; cbn [l_pos]; now rewrite E|apply IH; lia]].
    unfold it_dec, prev_of. cbn [l_db l_pos l_end].
    replace (S p <? length (leaves t))%nat with true by lia. reflexivity.
Qed.

Lemma back_rev db (t : fst_t) r : right_idx t = r -> length (leaves t) = S r ->
  forall k p, (p + k = r)%nat ->
  walks_back (it_dec false t) (it_show t) it_eqb (it_first false db t) (skipn (S p) (leaves t)) (LIt (Some db) (Some p) false).
Proof.
  intros HR HL. induction k as [|k IH]; intros p Hp.
  - rewrite skipn_all2 by lia. simpl. replace p with (right_idx t) by lia. apply it_refl.
  - destruct (nth_lt (leaves t) (S p) ltac:(lia)) as (x & E). rewrite (skipn_nth _ _ _ E).
    cbn [walks_back]. split.
    { unfold it_eqb, it_first. cbn [l_db l_pos l_end onat_eqb]. replace (p =? right_idx t)%nat with false by lia.
      now rewrite andb_false_r. }
    exists (LIt (Some db) (Some (S p)) false). split; [|split; [unfold it_show; cbn [l_pos]; now rewrite E|apply IH; lia]].
    unfold it_dec, next_of. cbn [l_db l_pos l_end].
    replace (p <? length (leaves t))%nat with true by lia. replace (S p <? length (leaves t))%nat with true by lia.
    reflexivity.
Qed.

(** Segment iterators. *)
Lemma seg_len (L : list (Z * V)) : length (segments_of L) = (length L - 1)%nat.
Proof.
  induction L as [|[k v] L IH]; [reflexivity|]. destruct L as [|[k1 v1] L]; [reflexivity|].
  change (segments_of ((k, v) :: (k1, v1) :: L)) with ((k, k1, v) :: segments_of ((k1, v1) :: L)).
  cbn [length] in *. lia.
Qed.

(** The iterator that shows segment [p], and the end position. *)
Definition seg_is (t : fst_t) (p : nat) (s : @sit V) : Prop :=
  exists x, nth_error (segments t) p = Some x /\ s = SIt (Some p) (Some (S p)) x.
Definition seg_past (t : fst_t) (s : @sit V) : Prop :=
  s_start s = Some (right_idx t) /\ s_end s = None.

Lemma seg_made (t : fst_t) p n : (S p < length (leaves t))%nat ->
  exists s, update_node t (SIt (Some p) (Some (S p)) n) = Ok s /\ seg_is t p s.
Proof.
  intros H. destruct (nth_lt (leaves t) p ltac:(lia)) as ([ks v] & E1). destruct (nth_lt (leaves t) (S p) H) as ([ke w] & E2).
  unfold update_node. cbn [s_end s_start]. rewrite E1, E2. cbn [deref bind]. eexists. split; [reflexivity|].
  exists (ks, ke, v). split; [eapply segments_nth; eauto|reflexivity].
Qed.

Lemma seg_goto_ok (t : fst_t) s p : (S p < length (leaves t))%nat ->
  exists s', seg_goto t s (Some p) = Ok s' /\ seg_is t p s'.
Proof.
  intros H. unfold seg_goto, next_of. replace (p <? length (leaves t))%nat with true by lia.
  replace (S p <? length (leaves t))%nat with true by lia. cbn [bind]. now apply seg_made.
Qed.
Lemma seg_goto_last (t : fst_t) s r : right_idx t = r -> length (leaves t) = S r ->
  exists s', seg_goto t s (Some r) = Ok s' /\ seg_past t s'.
Proof.
  intros HR HL. unfold seg_goto, next_of. replace (r <? length (leaves t))%nat with true by lia.
  replace (S r <? length (leaves t))%nat with false by lia. cbn [bind update_node s_end].
  eexists. split; [reflexivity|]. split; [now rewrite HR|reflexivity].
Qed.
Lemma seg_end_ok (t : fst_t) : exists e, seg_end vnull t = Ok e /\ seg_past t e.
Proof. eexists. split; [reflexivity|]. now split. Qed.

Lemma seg_is_next (t : fst_t) s p : seg_is t p s -> (S p < length (leaves t))%nat ->
  seg_inc t s = seg_goto t s (Some (S p)).
Proof.
  intros (x & E & ->) H. unfold seg_inc, next_of. cbn [s_start].
  replace (p <? length (leaves t))%nat with true by lia. replace (S p <? length (leaves t))%nat with true by lia.
  reflexivity.
Qed.

Lemma seg_walk (t : fst_t) r e : right_idx t = r -> length (leaves t) = S r -> seg_past t e ->
  forall k p s, (p + S k = r)%nat -> seg_is t p s ->
  walks (seg_inc t) (fun s => Ok (seg_show s)) seg_eqb e (skipn p (segments t)) s.
Proof.
  intros HR HL [P1 P2]. induction k as [|k IH]; intros p s Hp HS; pose proof HS as (x & E & Es);
    rewrite (skipn_nth _ _ _ E); cbn [walks].
  - split; [unfold seg_eqb; rewrite P2, Es; simpl; apply andb_false_r|]. split; [now rewrite Es|].
    rewrite (seg_is_next _ _ _ HS) by lia. replace (S p) with r by lia.
    destruct (seg_goto_last t s r HR HL) as (s' & E' & P1' & P2'). exists s'. split; [assumption|].
    rewrite skipn_all2; [|unfold segments; rewrite seg_len; lia]. simpl. unfold seg_eqb. rewrite P1, P2, P1', P2'. simpl.
    now rewrite Nat.eqb_refl.
  - split; [unfold seg_eqb; rewrite P2, Es; simpl; apply andb_false_r|]. split; [now rewrite Es|].
    rewrite (seg_is_next _ _ _ HS) by lia. destruct (seg_goto_ok t s (S p) ltac:(lia)) as (s' & E' & HS').
    exists s'. split; [assumption|]. apply IH; [lia|assumption].
Qed.

Lemma seg_back (t : fst_t) b : seg_is t 0 b ->
  forall p s, (seg_is t p s \/ seg_past t s /\ p = right_idx t /\ length (leaves t) = S p) ->
  walks_back (seg_dec t) (fun s => Ok (seg_show s)) seg_eqb b (rev (firstn p (segments t))) s.
Proof.
  intros (xb & Eb & ->). induction p as [|p IH]; intros s HS.
  - destruct HS as [(x & E & ->)|(_ & _ & HL)]; [reflexivity|].
    assert (nth_error (segments t) 0 = None) as G; [|congruence].
    apply nth_error_None. unfold segments. rewrite seg_len. lia.
  - assert (s_start s = Some (S p) /\ (S p < length (leaves t))%nat) as [P1 HL].
    { destruct HS as [(x & E & ->)|((P1 & _) & P2 & HL)].
      - split; [reflexivity|]. assert (S p < length (segments t))%nat as G by (apply nth_error_Some; congruence).
        unfold segments in G. rewrite seg_len in G. lia.
      - split; [congruence|lia]. }
    destruct (seg_goto_ok t s p HL) as (s' & E' & HS'). pose proof HS' as (x & E & Es').
    rewrite (firstn_nth _ _ _ E), rev_app_distr. cbn [rev app walks_back].
    split; [unfold seg_eqb; rewrite P1; reflexivity|]. exists s'. split; [|split].
    + unfold seg_dec, prev_of. rewrite P1. replace (S p <? length (leaves t))%nat with true by lia. cbn [bind]. exact E'.
    + now rewrite Es'.
    + apply IH. now left.
Qed.

Lemma seg_begin_is (t : fst_t) : (1 < length (leaves t))%nat -> exists s, seg_begin vnull t = Ok s /\ seg_is t 0 s.
Proof.
  intros H. unfold seg_begin, next_of. replace (0 <? length (leaves t))%nat with true by lia.
  replace (1 <? length (leaves t))%nat with true by lia. cbn [bind]. now apply seg_made.
Qed.

Lemma to_segment_is (t : fst_t) db p : (S p < length (leaves t))%nat ->
  exists s, to_segment vnull t (it_at db (p, false)) = Ok s /\ seg_is t p s.
Proof.
  intros H. unfold to_segment, it_at, next_of. cbn [l_db l_pos l_end fst snd].
  replace (p <? length (leaves t))%nat with true by lia. replace (S p <? length (leaves t))%nat with true by lia.
  cbn [bind]. now apply seg_made.
Qed.

End P.

(** * Theorems *)

(** C79: the bounds and the default value are those given to the constructor, whatever was
    done since; a copy has the same. *)
Theorem C79_bounds : forall (V : Type) (veqb : V -> V -> bool) (vnull : V), eqb_ok veqb ->
  forall mn mx d t, reach veqb vnull mn mx d t ->
  min_key t = Ok mn /\ max_key t = Ok mx /\ default_value t = d /\
  min_key (fst_copy t) = Ok mn /\ max_key (fst_copy t) = Ok mx /\ default_value (fst_copy t) = d.
Proof.
  intros V veqb vnull Hok mn mx d t R. apply reach_wf in R; [|exact Hok].
  destruct (left_right _ _ _ _ _ R) as (vl & E1 & E2). destruct R as (_ & E3 & _).
  unfold min_key, max_key, default_value.
  assert (left_leaf (fst_copy t) = left_leaf t) as -> by reflexivity.
  assert (right_leaf (fst_copy t) = right_leaf t) as -> by reflexivity.
  rewrite E1, E2. repeat split; assumption.
Qed.
Example C79_bounds_ex : min_key ex_tree = Ok 0 /\ max_key ex_tree = Ok 100.
Proof. vm_compute. auto. Qed.

(** C79: the forward iterators show the start of each segment and its value, then the upper
    bound; the reverse iterators show the same backwards; both can be walked back. *)
Theorem C79_keys : forall (V : Type) (veqb : V -> V -> bool) (vnull : V), eqb_ok veqb ->
  forall mn mx d t db, reach veqb vnull mn mx d t ->
  let l := key_entries mx vnull (segments t) in
  walks (it_inc true t) (it_show t) it_eqb (it_last true db t) l (it_first true db t) /\
  walks (it_inc false t) (it_show t) it_eqb (it_last false db t) (rev l) (it_first false db t) /\
  walks_back (it_dec true t) (it_show t) it_eqb (it_first true db t) (rev l) (it_last true db t) /\
  walks_back (it_dec false t) (it_show t) it_eqb (it_first false db t) l (it_last false db t).
Proof.
  intros V veqb vnull Hok mn mx d t db R. apply reach_wf in R; [|exact Hok].
  destruct (wf_shape _ _ _ _ _ R) as (r & HR & HL). destruct R as ((_ & v0 & X & E) & _).
  unfold segments. rewrite (entries_eq vnull mx (leaves t) ((mn, v0) :: X)) by exact E. cbn zeta.
  split; [|split; [|split]].
  - apply (walk_fwd db t (S r) HR HL (S r) 0). lia.
  - replace (leaves t) with (firstn (S (S r)) (leaves t)) by (rewrite <- HL; apply firstn_all).
    unfold it_first. rewrite HR. apply walk_rev. lia.
  - destruct (nth_lt (leaves t) (S r) ltac:(lia)) as (x & Ex).
    replace (rev (leaves t)) with (rev (firstn (S (S r)) (leaves t))) by (now rewrite <- HL, firstn_all).
    rewrite (firstn_nth _ _ _ Ex), rev_app_distr. cbn [rev app walks_back].
    split; [unfold it_eqb, it_first, it_last; simpl; apply andb_false_r|].
    exists (LIt (Some db) (Some (S r)) false). split; [unfold it_dec, it_last; simpl; now rewrite HR|].
    split; [unfold it_show; cbn [l_pos]; now rewrite Ex|]. apply back_fwd. lia.
  - destruct (nth_lt (leaves t) 0 ltac:(lia)) as (x & Ex). change (leaves t) with (skipn 0 (leaves t)).
    rewrite (skipn_nth _ _ _ Ex). cbn [walks_back].
    split; [unfold it_eqb, it_first, it_last; simpl; apply andb_false_r|].
    exists (LIt (Some db) (Some 0%nat) false). split; [reflexivity|].
    split; [unfold it_show; cbn [l_pos]; now rewrite Ex|]. apply (back_rev db t (S r) HR HL (S r)). lia.
Qed.
Example C79_keys_ex :
  key_entries 100 0 (segments ex_tree) = [(0, 0); (10, 1); (13, 2); (43, 0); (63, 3); (83, 0); (100, 0)].
Proof. vm_compute. reflexivity. Qed.

(** C79: from the position that search or an insertion returned, ++ and -- undo each
    other, and the iterators of two trees never compare equal. *)
Theorem C79_positions : forall (V : Type) (veqb : V -> V -> bool) (vnull : V), eqb_ok veqb ->
  forall mn mx d t db x p v s e, reach veqb vnull mn mx d t -> search t x = Ok (Some (p, v, s, e)) ->
  it_show t (it_at db (p, false)) = Ok (s, v) /\
  (exists i w, it_inc true t (it_at db (p, false)) = Ok i /\ it_show t i = Ok (e, w) /\
    it_dec true t i = Ok (it_at db (p, false))) /\
  (mn < s -> exists i k w, it_dec true t (it_at db (p, false)) = Ok i /\ it_show t i = Ok (k, w) /\ k < s /\
    it_inc true t i = Ok (it_at db (p, false))) /\
  (s = mn <-> it_eqb (it_at db (p, false)) (it_first true db t) = true) /\
  (forall db' i, l_db i = Some db' -> db' <> db -> it_eqb (it_at db (p, false)) i = false).
Proof.
  intros V veqb vnull Hok mn mx d t db x p v s e R HS. apply reach_wf in R; [|exact Hok].
  assert (mn <= x < mx) as Hx.
  { destruct (Z_le_dec mn x); [destruct (Z_lt_dec x mx)|]; try lia;
      rewrite (search_out vnull mn mx d) in HS by (auto; lia); discriminate. }
  destruct (search_ok vnull mn mx d t x R Hx) as (p' & v' & ks & ke & E' & (w & N1 & N2 & Hk) & _).
  rewrite HS in E'. injection E' as <- <- <- <-.
  destruct (wf_shape _ _ _ _ _ R) as (r & HR & HL).
  assert (S p < length (leaves t))%nat as Hp by (apply nth_error_Some; congruence).
  pose proof R as ((Hsort & v0 & X & EX) & _).
  split; [|split; [|split; [|split]]].
  - unfold it_show, it_at. cbn [l_pos fst]. now rewrite N1.
  - exists (LIt (Some db) (Some (S p)) false), w. unfold it_inc, it_dec, it_at, next_of, prev_of. cbn [l_db l_pos l_end fst snd].
    replace (p =? right_idx t)%nat with false by lia. replace (p <? length (leaves t))%nat with true by lia.
    replace (S p <? length (leaves t))%nat with true by lia. split; [reflexivity|].
    split; [unfold it_show; cbn [l_pos]; now rewrite N2|]. cbn [bind]. reflexivity.
  - intros Hs. destruct p as [|p].
    { rewrite EX in N1. simpl in N1. injection N1 as -> ->. lia. }
    destruct (nth_lt (leaves t) p ltac:(lia)) as ([k u] & N0).
    exists (LIt (Some db) (Some p) false), k, u. unfold it_inc, it_dec, it_at, next_of, prev_of. cbn [l_db l_pos l_end fst snd].
    replace (p =? right_idx t)%nat with false by lia. replace (p <? length (leaves t))%nat with true by lia.
    replace (S p <? length (leaves t))%nat with true by lia. split; [reflexivity|].
    split; [unfold it_show; cbn [l_pos]; now rewrite N0|]. split; [|reflexivity].
    apply nth_error_split in N0. destruct N0 as (l1 & l2 & EL & Hlen). rewrite EL in Hsort, N1.
    apply sorted_app in Hsort. destruct Hsort as (_ & Hsort & _). destruct Hsort as [Hsort _].
    rewrite nth_error_app2 in N1 by lia. replace (S p - length l1)%nat with 1%nat in N1 by lia.
    simpl in N1.
    specialize (Hsort (s, v)). cbn [fst] in Hsort. destruct l2 as [|y l2]; [discriminate|].
    simpl in N1. injection N1 as ->. apply Hsort. now left.
  - unfold it_eqb, it_at, it_first. cbn [l_db l_pos l_end fst snd onat_eqb]. rewrite Nat.eqb_refl.
    cbn [andb Bool.eqb]. rewrite andb_true_r. split.
    + intros ->. destruct p as [|p]; [reflexivity|]. exfalso.
      rewrite EX in Hsort, N1. destruct Hsort as [Hsort _]. simpl in N1. apply nth_error_In in N1.
      specialize (Hsort _ N1). simpl in Hsort. lia.
    + intros Hp0. apply Nat.eqb_eq in Hp0. subst p. rewrite EX in N1. simpl in N1. now injection N1 as -> ->.
  - intros db' i Hi Hne. unfold it_eqb, it_at. cbn [l_db]. rewrite Hi. cbn [onat_eqb].
    replace (db =? db')%nat with false by lia. reflexivity.
Qed.
Example C79_positions_ex : search ex_tree 20 = Ok (Some (2%nat, 2, 13, 43)) /\
  it_show ex_tree (it_at 7 (2%nat, false)) = Ok (13, 2).
Proof. vm_compute. auto. Qed.

(** C79: the segment iterators show the segments, in both directions; this is also what
    segment_range() gives. *)
Theorem C79_segments : forall (V : Type) (veqb : V -> V -> bool) (vnull : V), eqb_ok veqb ->
  forall mn mx d t, reach veqb vnull mn mx d t ->
  exists b e, seg_begin vnull t = Ok b /\ seg_end vnull t = Ok e /\
  walks (seg_inc t) (fun s => Ok (seg_show s)) seg_eqb e (segments t) b /\
  walks_back (seg_dec t) (fun s => Ok (seg_show s)) seg_eqb b (rev (segments t)) e.
Proof.
  intros V veqb vnull Hok mn mx d t R. apply reach_wf in R; [|exact Hok].
  destruct (wf_shape _ _ _ _ _ R) as (r & HR & HL).
  destruct (seg_begin_is vnull t ltac:(lia)) as (b & Eb & Hb). destruct (seg_end_ok vnull t) as (e & Ee & He).
  exists b, e. repeat split; auto.
  - apply (seg_walk t (S r) e HR HL He r 0); [lia|assumption].
  - replace (segments t) with (firstn (S r) (segments t)).
    2:{ apply firstn_all2. unfold segments. rewrite seg_len. lia. }
    apply seg_back; [assumption|]. right. split; [assumption|lia].
Qed.
Example C79_segments_ex : exists b e, seg_begin 0 ex_tree = Ok b /\ seg_show b = (0, 10, 0) /\
  seg_end 0 ex_tree = Ok e /\ seg_eqb b e = false.
Proof. do 2 eexists. vm_compute. auto. Qed.

(** C79: to_segment() of the position that search returned shows the segment of the key,
    and goes on from there to the end; so does to_segment() of the position returned by an
    insertion, whose segment contains the inserted one.  to_segment() at the upper bound
    and at the end gives end_segment(). *)
Theorem C79_to_segment : forall (V : Type) (veqb : V -> V -> bool) (vnull : V), eqb_ok veqb ->
  forall mn mx d t db, reach veqb vnull mn mx d t ->
  (forall x p v s e, search t x = Ok (Some (p, v, s, e)) ->
    exists i l1 l2 stop, to_segment vnull t (it_at db (p, false)) = Ok i /\ segments t = l1 ++ (s, e, v) :: l2 /\
      seg_end vnull t = Ok stop /\
      walks (seg_inc t) (fun s => Ok (seg_show s)) seg_eqb stop ((s, e, v) :: l2) i) /\
  (forall a b v t' it chg, insert_front veqb t a b v = Ok (t', it, chg) ->
    (exists x, mn <= x < mx /\ a <= x < b) ->
    exists i s e, to_segment vnull t' (it_at db it) = Ok i /\ seg_show i = (s, e, v) /\
      In (s, e, v) (segments t') /\ s <= Z.max a mn /\ Z.min b mx <= e) /\
  to_segment vnull t (it_last true db t) = seg_end vnull t /\
  to_segment vnull t (it_at db (right_idx t, false)) = seg_end vnull t.
Proof.
  intros V veqb vnull Hok mn mx d t db R0. pose proof R0 as R. apply reach_wf in R; [|exact Hok].
  destruct (wf_shape _ _ _ _ _ R) as (r & HR & HL).
  split; [|split; [|split]].
  - intros x p v s e HS.
    assert (mn <= x < mx) as Hx.
    { destruct (Z_le_dec mn x); [destruct (Z_lt_dec x mx)|]; try lia;
        rewrite (search_out vnull mn mx d) in HS by (auto; lia); discriminate. }
    destruct (search_ok vnull mn mx d t x R Hx) as (p' & v' & ks & ke & E' & (w & N1 & N2 & Hk) & _).
    rewrite HS in E'. injection E' as <- <- <- <-.
    assert (S p < length (leaves t))%nat as Hp by (apply nth_error_Some; congruence).
    pose proof (segments_nth _ _ _ _ _ _ N1 N2) as NS. fold (segments t) in NS.
    destruct (to_segment_is vnull t db p Hp) as (i & Ei & Hi). destruct (seg_end_ok vnull t) as (stop & Es & Hs).
    exists i, (firstn p (segments t)), (skipn (S p) (segments t)), stop.
    split; [assumption|]. split; [|split; [assumption|]].
    + rewrite <- (skipn_nth _ _ _ NS). symmetry. apply firstn_skipn.
    + rewrite <- (skipn_nth _ _ _ NS). apply (seg_walk t (S r) stop HR HL Hs (r - p) p); [lia|assumption].
  - intros a b v t' it chg HI HX.
    destruct (C04_returned_position V veqb vnull Hok mn mx d t a b v t' it chg R0 HI HX) as (H1 & s & e & H2 & H3 & H4).
    destruct it as [p q]. cbn [fst snd] in *. subst q.
    assert (S p < length (leaves t'))%nat as Hp.
    { assert (p < length (segments t'))%nat as G by (apply nth_error_Some; congruence).
      unfold segments in G. rewrite seg_len in G. lia. }
    destruct (to_segment_is vnull t' db p Hp) as (i & Ei & (y & Ey & ->)). rewrite H2 in Ey. injection Ey as <-.
    eexists _, s, e. split; [exact Ei|]. split; [reflexivity|]. split; [eapply nth_error_In; eauto|]. auto.
  - reflexivity.
  - unfold to_segment, it_at, next_of. cbn [l_db l_pos l_end fst snd].
    replace (right_idx t <? length (leaves t))%nat with true by lia.
    replace (S (right_idx t) <? length (leaves t))%nat with false by lia. reflexivity.
Qed.
Example C79_to_segment_ex : exists i, to_segment 0 ex_tree (it_at 7 (2%nat, false)) = Ok i /\ seg_show i = (13, 43, 2).
Proof. eexists. vm_compute. auto. Qed.

(** C79 is false for to_segment() of a default constructed iterator: the test for the
    missing tree is there, but end_segment() is then called through the null pointer. *)
Theorem C79_to_segment_refuted : forall (V : Type) (vnull : V) t, to_segment vnull t lit0 = Undef.
Proof. reflexivity. Qed.

(** C79: a copy of a segment iterator, or one assigned from it, is equal to it and shows
    the same segment; the postfix operators return the position before the move. *)
Theorem C79_segment_copy : forall (V : Type) (veqb : V -> V -> bool) (vnull : V), eqb_ok veqb ->
  forall mn mx d t db x p v s e i, reach veqb vnull mn mx d t -> search t x = Ok (Some (p, v, s, e)) ->
  to_segment vnull t (it_at db (p, false)) = Ok i ->
  seg_copy vnull t i = Ok i /\ (forall y, seg_assign t y i = Ok i) /\
  (exists j, seg_post_inc vnull t i = Ok (i, j) /\ seg_inc t i = Ok j) /\
  (mn < s -> exists j, seg_post_dec vnull t i = Ok (i, j) /\ seg_dec t i = Ok j /\ seg_inc t j = Ok i).
Proof.
  intros V veqb vnull Hok mn mx d t db x p v s e i R0 HS HT. pose proof R0 as R. apply reach_wf in R; [|exact Hok].
  destruct (wf_shape _ _ _ _ _ R) as (r & HR & HL).
  assert (mn <= x < mx) as Hx.
  { destruct (Z_le_dec mn x); [destruct (Z_lt_dec x mx)|]; try lia;
      rewrite (search_out vnull mn mx d) in HS by (auto; lia); discriminate. }
  destruct (search_ok vnull mn mx d t x R Hx) as (p' & v' & ks & ke & E' & (w & N1 & N2 & Hk) & _).
  rewrite HS in E'. injection E' as <- <- <- <-.
  assert (S p < length (leaves t))%nat as Hp by (apply nth_error_Some; congruence).
  destruct (to_segment_is vnull t db p Hp) as (i' & Ei & Hi). rewrite HT in Ei. injection Ei as <-.
  assert (forall n, update_node t (SIt (Some p) (Some (S p)) n) = Ok i) as HU.
  { intros n. destruct (seg_made t p n Hp) as (s' & Es & (y & Ey & ->)). destruct Hi as (z & Ez & ->).
    rewrite Es. congruence. }
  assert (exists z, i = SIt (Some p) (Some (S p)) z) as (z & Ez) by (destruct Hi as (z & _ & ->); eauto).
  assert (seg_copy vnull t i = Ok i) as HC by (rewrite Ez; unfold seg_copy, seg_make; cbn [s_start s_end]; rewrite HU, Ez; reflexivity).
  split; [exact HC|]. split; [|split].
  - intros y. rewrite Ez at 1. unfold seg_assign. cbn [s_start s_end]. apply HU.
  - unfold seg_post_inc. rewrite HC. rewrite (seg_is_next t i p Hi Hp).
    destruct (Nat.eq_dec (S p) (S r)) as [Hpr|Hpr].
    + rewrite Hpr. destruct (seg_goto_last t i (S r) HR HL) as (j & Ej & _). rewrite Ej. exists j. split; reflexivity.
    + destruct (seg_goto_ok t i (S p) ltac:(lia)) as (j & Ej & _). rewrite Ej. exists j. split; reflexivity.
  - intros Hs. destruct p as [|p].
    { destruct R as ((_ & v0 & X & EX) & _). rewrite EX in N1. simpl in N1. injection N1 as -> ->. lia. }
    unfold seg_post_dec. rewrite HC. cbn [bind].
    assert (seg_dec t i = seg_goto t i (Some p)) as ->.
    { rewrite Ez at 1. unfold seg_dec, prev_of. cbn [s_start]. replace (S p <? length (leaves t))%nat with true by lia.
      cbn [bind]. now rewrite Ez. }
    destruct (seg_goto_ok t i p ltac:(lia)) as (j & Ej & Hj). rewrite Ej. exists j. split; [reflexivity|].
    split; [reflexivity|]. rewrite (seg_is_next t j p Hj ltac:(lia)).
    unfold seg_goto, next_of. replace (S p <? length (leaves t))%nat with true by lia.
    replace (S (S p) <? length (leaves t))%nat with true by lia. cbn [bind]. apply HU.
Qed.
Example C79_segment_copy_ex : exists i, to_segment 0 ex_tree (it_at 7 (2%nat, false)) = Ok i /\
  seg_copy 0 ex_tree i = Ok i.
Proof. eexists. vm_compute. auto. Qed.

(** One query for all the theorems of this file. *)
Definition FstIterProps_theorems :=
  (@C79_bounds, @C79_keys, @C79_positions, @C79_segments, @C79_to_segment, @C79_to_segment_refuted,
   @C79_segment_copy).
Print Assumptions FstIterProps_theorems.
