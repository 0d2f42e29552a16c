(** The properties of point_quad_tree (C27 - C30). *)

From Coq Require Import List ZArith Lia Bool Permutation.
From Verif Require Import Base PqtModel PqtSpec PqtProofs PqtRemove PqtMain.
Import ListNotations.
Open Scope Z_scope.

(** ** Bridges *)

Section B.
Context {V : Type}.

Lemma nothing_shown : shows (QE : qt V) nothing.
Proof. intros x y. reflexivity. Qed.

Lemma no_remove_run (os : list (op V)) : no_remove os ->
  exists t, run QE os = Ok t /\ shows t (ideal nothing os).
Proof.
  intros N. destruct (leaf_run os QE I (fun q => match q with NE | NW | SE | SW => I end) (no_remove_leaf os N QE))
    as (t & E & _ & D).
  exists t. split; [exact E|]. exact (run_shows os QE t nothing I nothing_shown E D).
Qed.

Lemma size_points (os : list (op V)) t : run QE os = Ok t ->
  exists l : list (Z * Z), NoDup l /\ size t = length l /\
    forall x y, In (x, y) l <-> exists v, find x y t = Ok v.
Proof.
  intros E. assert (W : wf t) by (apply (run_wf os QE t I E)).
  exists (keys (stored t)). split; [apply wf_nodup, W|]. split; [unfold keys; rewrite map_length; apply size_stored|].
  intros x y. unfold keys. rewrite in_map_iff. split.
  - intros ([[a b] v] & Eq & Hi). injection Eq as -> ->. exists v. apply find_ok; auto.
  - intros (v & H). apply find_ok in H; auto. exists (x, y, v). auto.
Qed.

Lemma search_exact (os : list (op V)) t x1 y1 x2 y2 : run QE os = Ok t ->
  NoDup (map fst (search_region x1 y1 x2 y2 t)) /\
  forall x y v, In (x, y, v) (search_region x1 y1 x2 y2 t) <->
    find x y t = Ok v /\ x1 <= x <= x2 /\ y1 <= y <= y2.
Proof.
  intros E. assert (W : wf t) by (apply (run_wf os QE t I E)).
  rewrite search_region_filter by assumption. split.
  - pose proof (wf_nodup t W) as N. unfold keys, key in N. revert N. generalize (stored t). clear.
    induction l as [|p l IH]; intros N; [constructor|]. cbn [map filter] in *.
    inversion N as [|? ? N1 N2]; subst.
    destruct (in_window x1 y1 x2 y2 p); [|auto]. cbn [map]. constructor; [|auto].
    intros H. apply N1. apply in_map_iff in H. destruct H as (q & Eq & H). apply filter_In in H.
    apply in_map_iff. exists q. tauto.
  - intros x y v. rewrite filter_In, <- find_ok by assumption.
    unfold in_window. rewrite !andb_true_iff, !Z.leb_le.
    split; intros [H1 H2]; (split; [exact H1|lia]).
Qed.

Lemma absent_remove (os : list (op V)) t x y : run QE os = Ok t ->
  find x y t = Throw E_general -> remove x y t = Ok t.
Proof.
  intros E H. apply absent_node in H.
  assert (R : forall (u : qt V) root, find_node x y u = QE -> remove_at root x y u = Ok u).
  { clear. induction u as [|k cx cy cv ne IH1 nw IH2 se IH3 sw IH4]; intros root H; [reflexivity|].
    cbn [find_node remove_at] in *. destruct ((cx =? x) && (cy =? y)); [discriminate|].
    destruct (get_quadrant cx cy x y).
    - rewrite IH1 by assumption. reflexivity.
    - rewrite IH2 by assumption. reflexivity.
    - rewrite IH3 by assumption. reflexivity.
    - rewrite IH4 by assumption. reflexivity. }
  apply R, H.
Qed.

Lemma leaf_history (os : list (op V)) : all_leaf QE os ->
  exists t, run QE os = Ok t /\ shows t (ideal nothing os).
Proof.
  intros A. destruct (leaf_run os QE I (fun q => match q with NE | NW | SE | SW => I end) A) as (t & E & _ & D).
  exists t. split; [exact E|]. exact (run_shows os QE t nothing I nothing_shown E D).
Qed.

Lemma direct_remove (os : list (op V)) x y : all_leaf QE os ->
  exists t t', run QE os = Ok t /\ remove x y t = Ok t' /\
    (direct_at x y t -> shows t' (drop x y (ideal nothing os))).
Proof.
  intros A. destruct (leaf_run os QE I (fun q => match q with NE | NW | SE | SW => I end) A) as (t & E & L & D).
  assert (W : wf t) by (apply (run_wf os QE t I E)).
  destruct (remove_at_total x y t true W ltac:(discriminate) L) as (t' & E').
  exists t, t'. split; [exact E|]. split; [exact E'|]. intros Dx.
  exact (remove_shows t t' _ x y W (run_shows os QE t nothing I nothing_shown E D) E' Dx).
Qed.

Lemma remove_subset (os : list (op V)) t t' x y : run QE os = Ok t -> remove x y t = Ok t' ->
  forall a b v, find a b t' = Ok v -> find a b t = Ok v /\ (a, b) <> (x, y).
Proof.
  intros E E'. assert (W : wf t) by (apply (run_wf os QE t I E)). apply remove_sub; auto.
Qed.

Lemma remove_iff (os : list (op V)) t t' x y v : run QE os = Ok t -> find x y t = Ok v -> remove x y t = Ok t' ->
  (direct_at x y t <-> forall a b, (a, b) <> (x, y) -> find a b t' = find a b t).
Proof.
  intros E F E'. assert (W : wf t) by (apply (run_wf os QE t I E)). split.
  - intros D a b N. pose proof (remove_shows t t' (content_of t) x y W (content_shown t) E' D a b) as S.
    rewrite S, (content_shown t a b). unfold drop.
    destruct ((a =? x) && (b =? y)) eqn:Ec; [|reflexivity]. exfalso. apply N.
    apply xy_eqb in Ec. congruence.
  - intros H.
    destruct (remove_at_spec x y t true t' W E') as [W' Hp].
    pose proof F as F'. unfold find in F'. destruct (find_node x y t) as [|k cx cy cv ne nw se sw] eqn:En; [discriminate|].
    destruct Hp as (lost & P & L). apply L. destruct lost as [|p lost]; [reflexivity|].
    assert (ND : ~ direct_at x y t) by (intros Dx; apply L in Dx; discriminate).
    destruct (remove_loses t t' x y v W F E' ND) as (a & b & w & N & Fa & Fb).
    rewrite (H a b N), Fa in Fb. discriminate.
Qed.

Lemma copy_ok (os : list (op V)) t : run QE os = Ok t ->
  forall x y, find x y (copy t) = find x y t.
Proof.
  intros E x y. assert (W : wf t) by (apply (run_wf os QE t I E)).
  rewrite (copy_shows t (content_of t) W (content_shown t) x y), (content_shown t x y). reflexivity.
Qed.
End B.

(** ** Theorems *)

(** C27: after any history of insertions (and clears, and replacing the tree by
    its copy), find() gives the last value inserted at the point. *)
Theorem C27_find_last : forall (V : Type) (os : list (op V)), no_remove os ->
  exists t, run QE os = Ok t /\ shows t (ideal nothing os).
Proof. intros V. exact no_remove_run. Qed.

Definition ex_ins : list (op Z) :=
  [OInsert 10 10 1; OInsert 20 0 2; OInsert 15 5 3; OInsert 3 4 4; OInsert 10 10 5; OInsert 10 40 6].

Example C27_find_last_ex : no_remove ex_ins /\
  ideal nothing ex_ins 10 10 = Some 5 /\ ideal nothing ex_ins 3 4 = Some 4 /\ ideal nothing ex_ins 4 3 = None.
Proof. repeat split; repeat constructor. Qed.

(** C27: size() is the number of distinct points that find() reports, after any
    history, removals included. *)
Theorem C27_size : forall (V : Type) (os : list (op V)) t, run QE os = Ok t ->
  exists l : list (Z * Z), NoDup l /\ size t = length l /\
    forall x y, In (x, y) l <-> exists v, find x y t = Ok v.
Proof. intros V. exact size_points. Qed.

Example C27_size_ex : exists t, run QE (ex_ins ++ [ORemove 3 4]) = Ok t /\ size t = 4%nat.
Proof. eexists. split; [vm_compute; reflexivity|vm_compute; reflexivity]. Qed.

(** C28: after any history, removals included, a region search gives exactly
    the stored points of the closed window, each once. *)
Theorem C28_search_region : forall (V : Type) (os : list (op V)) t x1 y1 x2 y2, run QE os = Ok t ->
  NoDup (map fst (search_region x1 y1 x2 y2 t)) /\
  forall x y v, In (x, y, v) (search_region x1 y1 x2 y2 t) <->
    find x y t = Ok v /\ x1 <= x <= x2 /\ y1 <= y <= y2.
Proof. intros V. exact search_exact. Qed.

Example C28_search_region_ex : exists t, run QE (ex_ins ++ [ORemove 3 4]) = Ok t /\
  search_region 10 0 15 10 t = [(10, 10, 5); (15, 5, 3)].
Proof. eexists. split; [vm_compute; reflexivity|vm_compute; reflexivity]. Qed.

(** C29: removing a point that is not stored changes nothing. *)
Theorem C29_absent : forall (V : Type) (os : list (op V)) t x y, run QE os = Ok t ->
  find x y t = Throw E_general -> remove x y t = Ok t.
Proof. intros V. exact absent_remove. Qed.

Example C29_absent_ex : exists t, run QE ex_ins = Ok t /\ find 11 11 t = Throw E_general.
Proof. eexists. split; [vm_compute; reflexivity|vm_compute; reflexivity]. Qed.

(** C29: remove() never makes a point appear or change, and the point removed
    is gone. *)
Theorem C29_no_new_points : forall (V : Type) (os : list (op V)) t t' x y,
  run QE os = Ok t -> remove x y t = Ok t' ->
  forall a b v, find a b t' = Ok v -> find a b t = Ok v /\ (a, b) <> (x, y).
Proof. intros V. exact remove_subset. Qed.

Example C29_no_new_points_ex : exists t t', run QE ex_ins = Ok t /\ remove 3 4 t = Ok t' /\ find 15 5 t' = Ok 3.
Proof.
  eexists. eexists. split; [vm_compute; reflexivity|].
  split; [vm_compute; reflexivity|vm_compute; reflexivity].
Qed.

(** C29, partial (missing: nodes with children): a history of insertions, clears
    and removals of points that are absent or have no children throws nothing
    and leaves the expected map. *)
Theorem C29_leaves_partial : forall (V : Type) (os : list (op V)), all_leaf QE os ->
  exists t, run QE os = Ok t /\ shows t (ideal nothing os).
Proof. intros V. exact leaf_history. Qed.

Example C29_leaves_partial_ex : all_leaf QE (ex_ins ++ [ORemove 3 4; ORemove 7 7; ORemove 15 5; ORemove 20 0]).
Proof.
  unfold ex_ins. cbn [app all_leaf].
  repeat (split; [exact I|intros ? E; cbn [step] in E; injection E as <-]).
  split; [right; vm_compute; reflexivity|]. intros t' E. vm_compute in E. injection E as <-.
  split; [left; vm_compute; reflexivity|]. intros t' E. vm_compute in E. injection E as <-.
  split; [right; vm_compute; reflexivity|]. intros t' E. vm_compute in E. injection E as <-.
  split; [right; vm_compute; reflexivity|]. intros t' E. exact I.
Qed.

(** C29, partial (missing: a second removal of a node with children, and
    replacements that are not children): on such a tree one more remove() of any
    point throws nothing, and takes out exactly that point when the replacement
    is a child of the node. *)
Theorem C29_first_inner_partial : forall (V : Type) (os : list (op V)) x y, all_leaf QE os ->
  exists t t', run QE os = Ok t /\ remove x y t = Ok t' /\
    (direct_at x y t -> shows t' (drop x y (ideal nothing os))).
Proof. intros V. exact direct_remove. Qed.

Example C29_first_inner_partial_ex : exists t,
  run QE ([OInsert 10 10 1; OInsert 20 0 2; OInsert 25 3 3; OInsert 5 8 4; OInsert 30 7 7; OInsert 22 2 9] : list (op Z)) = Ok t /\
  direct_at 10 10 t /\ ~ leaf_at 10 10 t /\
  exists t', remove 10 10 t = Ok t' /\ size t' = 5%nat /\ find 30 7 t' = Ok 7.
Proof.
  eexists. split; [vm_compute; reflexivity|]. split.
  - intros q rx ry E. vm_compute in E. injection E as <- <- <-. vm_compute. reflexivity.
  - split; [vm_compute; discriminate|]. eexists. split; [vm_compute; reflexivity|].
    split; [vm_compute; reflexivity|vm_compute; reflexivity].
Qed.

(** C29, partial (missing: remove() may throw after an earlier removal of a node
    with children): for any history that throws nothing and in which every
    removed node has its replacement among its children, the map is the expected
    one. *)
Theorem C29_direct_partial : forall (V : Type) (os : list (op V)) t, run QE os = Ok t -> all_direct QE os ->
  shows t (ideal nothing os).
Proof. intros V os t E D. exact (run_shows os QE t nothing I nothing_shown E D). Qed.

Example C29_direct_partial_ex : exists t,
  run QE ([OInsert 10 10 1; OInsert 20 0 2; OInsert 5 8 4; ORemove 10 10; ORemove 20 0] : list (op Z)) = Ok t /\
  all_direct QE ([OInsert 10 10 1; OInsert 20 0 2; OInsert 5 8 4; ORemove 10 10; ORemove 20 0] : list (op Z)).
Proof.
  eexists. split; [vm_compute; reflexivity|]. cbn [all_direct].
  repeat (split; [exact I|intros ? E; cbn [step] in E; injection E as <-]).
  split.
  - intros q rx ry E. vm_compute in E. injection E as <- <- <-. vm_compute. reflexivity.
  - intros t' E. vm_compute in E. injection E as <-. split; [|intros; exact I].
    intros q rx ry E. vm_compute in E.
    try discriminate; injection E as <- <- <-; vm_compute; reflexivity.
Qed.

(** C29: the condition is exact.  When remove() of a stored point returns, all
    other points keep their values exactly if the replacement is a child of the
    node. *)
Theorem C29_exactly_direct : forall (V : Type) (os : list (op V)) t t' x y v,
  run QE os = Ok t -> find x y t = Ok v -> remove x y t = Ok t' ->
  (direct_at x y t <-> forall a b, (a, b) <> (x, y) -> find a b t' = find a b t).
Proof. intros V. exact remove_iff. Qed.

Example C29_exactly_direct_ex : exists t t', run QE ex_ins = Ok t /\ find 10 10 t = Ok 5 /\ remove 10 10 t = Ok t' /\
  ~ direct_at 10 10 t.
Proof.
  eexists. eexists. split; [vm_compute; reflexivity|]. split; [vm_compute; reflexivity|].
  split; [vm_compute; reflexivity|].
  intros D. specialize (D NE 15 5). vm_compute in D. discriminate (D eq_refl).
Qed.

(** C29 is false as stated: after three insertions, removing one point also
    loses another one. *)
Theorem C29_remove_refuted :
  exists t t', run QE [OInsert 10 10 1; OInsert 20 0 2; OInsert 15 5 3] = Ok t /\
    remove 10 10 t = Ok t' /\ find 20 0 t = Ok 2 /\ find 20 0 t' = Throw E_general /\ size t' = 1%nat.
Proof.
  eexists. eexists. split; [vm_compute; reflexivity|].
  repeat (split; [vm_compute; reflexivity|]). vm_compute; reflexivity.
Qed.

(** C29 is false as stated in a second way: after the removal of a node with a
    child, removing the point that took its place throws. *)
Theorem C29_remove_throws_refuted :
  exists t, run QE [OInsert 0 0 1; OInsert 10 (-10) 2; OInsert 20 (-20) 3; ORemove 10 (-10)] = Ok t /\
    find 20 (-20) t = Ok 3 /\ remove 20 (-20) t = Throw E_general.
Proof.
  eexists. split; [vm_compute; reflexivity|]. split; [vm_compute; reflexivity|vm_compute; reflexivity].
Qed.

(** C30: copies and assigned trees store what their source stores. *)
Theorem C30_copy : forall (V : Type) (os : list (op V)) t, run QE os = Ok t ->
  forall x y, find x y (copy t) = find x y t.
Proof. intros V. exact copy_ok. Qed.

Theorem C30_assign : forall (V : Type) (os : list (op V)) t r, run QE os = Ok r ->
  forall x y, find x y (assign t r) = find x y r.
Proof. intros V os t r. exact (copy_ok os r). Qed.

Example C30_copy_ex : exists t, run QE (ex_ins ++ [ORemove 10 10]) = Ok t /\
  copy t <> t /\ find 3 4 (copy t) = Ok 4.
Proof.
  eexists. split; [vm_compute; reflexivity|]. split; [vm_compute; discriminate|vm_compute; reflexivity].
Qed.

Example C30_assign_ex : exists t r, run QE ex_ins = Ok t /\ run QE [OInsert 3 4 9] = Ok r /\
  find 10 10 (assign t r) = Throw E_general /\ find 3 4 (assign t r) = Ok 9.
Proof.
  eexists. eexists. split; [vm_compute; reflexivity|]. split; [vm_compute; reflexivity|].
  split; [vm_compute; reflexivity|vm_compute; reflexivity].
Qed.

(** C30: operator== holds exactly when the trees store the same map, whatever
    their shapes, and whatever < on values does. *)
Theorem C30_equal : forall (V : Type) (vlt veq : V -> V -> bool),
  (forall a b, veq a b = true <-> a = b) ->
  forall (os1 os2 : list (op V)) t r, run QE os1 = Ok t -> run QE os2 = Ok r ->
  (equal vlt veq t r = true <-> forall x y, find x y t = find x y r).
Proof.
  intros V vlt veq Hv os1 os2 t r E1 E2. apply (equal_content vlt veq Hv).
  - exact (run_wf os1 QE t I E1).
  - exact (run_wf os2 QE r I E2).
Qed.

Example C30_equal_ex : exists t r,
  run QE [OInsert 1 1 1; OInsert 5 5 2; OInsert 3 (-3) 3] = Ok t /\
  run QE [OInsert 3 (-3) 3; OInsert 5 5 2; OInsert 1 1 7; OInsert 1 1 1] = Ok r /\
  t <> r /\ equal Z.ltb Z.eqb t r = true.
Proof.
  eexists. eexists. split; [vm_compute; reflexivity|]. split; [vm_compute; reflexivity|].
  split; [discriminate|vm_compute; reflexivity].
Qed.

(** C30 is false for self-assignment, which empties the tree. *)
Theorem C30_self_assign_refuted :
  exists t, run QE [OInsert 1 1 1] = Ok t /\ find 1 1 t = Ok 1 /\ find 1 1 (assign_self t) = Throw E_general.
Proof.
  eexists. split; [vm_compute; reflexivity|]. split; [vm_compute; reflexivity|vm_compute; reflexivity].
Qed.

(** One query for all the theorems of this file. *)
Definition PqtProps_theorems :=
  (@C27_find_last, @C27_size, @C28_search_region, @C29_absent,
   @C29_no_new_points, @C29_leaves_partial, @C29_first_inner_partial, @C29_direct_partial,
   @C29_exactly_direct, @C29_remove_refuted, @C29_remove_throws_refuted, @C30_copy,
   @C30_assign, @C30_equal, @C30_self_assign_refuted).
Print Assumptions PqtProps_theorems.
