(** C82 and C83: the extent after removals, and walk, in rtree. *)

From Coq Require Import List ZArith Lia Bool Permutation.
From Verif Require Import Base RtModel RtSpec RtSpec2 RtBox RtPerm RtTree RtShape RtSplit RtInsert RtSearch RtObs RtErase RtErase2 RtBulk RtObs2 RtProps RtProps2.
Import ListNotations.
Open Scope nat_scope.

(** ** C82 *)
(** In full: after any removal extent() is the smallest box around what is left, and
    check_integrity accepts the tree.  It holds for removals that leave the leaf directory
    in place. *)
Theorem C82_extent_partial : forall (V : Type) (C : cfg), traits_ok C -> forall (s : st V) l, kept C s l ->
  forall q a d b v, In (a, d, b, v) (search_overlap q s) -> leaf_stays C a s ->
  exists s' l', erase C a d s = Ok s' /\ Permutation l ((b, v) :: l') /\
    (l' <> [] -> smallest_around (extent s') (map fst l')) /\ check_integrity C false s' = true.
Proof.
  intros V C T s l B q a d b v I Hl. destruct (C70_erase_kept V C T s l B q a d b v I Hl) as (s' & l' & E & P & B').
  exists s', l'. split; [exact E|]. split; [exact P|]. destruct (C70_kept_observed V C T s' l' B') as (_ & _ & _ & _ & _ & X & Y). auto.
Qed.

(** For the wider class extent() still encloses what is left. *)
Theorem C82_encloses : forall (V : Type) (C : cfg), traits_ok C -> forall ld (s : st V) l, managed C ld s l ->
  forall q a d b v s', In (a, d, b, v) (search_overlap q s) -> leaf_stays C a s \/ leaf_goes C a s ->
  erase C a d s = Ok s' ->
  exists l', Permutation l ((b, v) :: l') /\ Forall (fun e => box_in (fst e) (extent s')) l'.
Proof.
  intros V C T ld s l B q a d b v s' I Hl E.
  destruct (C70_erase_partial V C T ld s l B q a d b v I Hl) as [(s1 & l' & E1 & P & B')|[E1 _]]; [|congruence].
  assert (s1 = s') by congruence. subst s1. exists l'. split; [exact P|].
  now destruct (C70_managed_observed V C T ld s' l' B') as (_ & _ & _ & _ & _ & X).
Qed.

Example C82_extent_ex :
  leaf_stays c4 (fst (ex_at (ex_tree 14) 9)) (ex_tree 14) /\ leaf_goes c4 (fst (ex_at (ex_tree 28) 27)) (ex_tree 28) /\
  extent (ex_erase 9 (ex_tree 14)) = [(0, 15); (0, 4)]%Z.
Proof.
  split; [exists [2; 3], 3; split; [vm_compute; reflexivity|right; cbn; lia]|].
  split; [|vm_compute; reflexivity].
  exists [4], 3, 2. split; [vm_compute; reflexivity|]. split; [cbn; lia|]. right. split; [discriminate|]. split; [cbn; lia|].
  vm_compute. discriminate.
Qed.

(** Finding R9: where the leaf directory is dissolved, only the directory above it gets a
    new box.  Here entry 27 alone reaches up to 29 and is removed; extent() still reports
    29 and check_integrity rejects the tree. *)
Theorem C82_extent_refuted : exists (s s' : st nat) l a d b v,
  built c4 s l /\ In (a, d, b, v) (search_overlap b s) /\ erase c4 a d s = Ok s' /\
  (exists l', Permutation l ((b, v) :: l') /\ l' <> [] /\ ~ smallest_around (extent s') (map fst l')) /\
  check_integrity c4 false s' = false.
Proof.
  exists (ex_tree 28), (ex_erase 27 (ex_tree 28)), (rev (ex_list 28)), (fst (ex_at (ex_tree 28) 27)), (snd (ex_at (ex_tree 28) 27)), (ex_box 27), 27.
  split; [apply tree_built; vm_compute; reflexivity|]. split; [|split; [vm_compute; reflexivity|split; [|vm_compute; reflexivity]]].
  - assert (E : existsb (fun x => match x with (a, d, b, v) => Nat.eqb a (fst (ex_at (ex_tree 28) 27)) && Nat.eqb d (snd (ex_at (ex_tree 28) 27)) && box_eqb b (ex_box 27) && Nat.eqb v 27 end)
       (search_overlap (ex_box 27) (ex_tree 28)) = true) by (vm_compute; reflexivity).
    apply existsb_exists in E. destruct E as ([[[a d] b] v] & I & E). rewrite !andb_true_iff, !Nat.eqb_eq in E. destruct E as [[[E1 E2] E3] E4].
    subst v. rewrite <- E1, <- E2. assert (b = ex_box 27) by (revert E3; apply box_eqb_eq). subst b. exact I.
  - exists (rev (ex_list 27)). split; [vm_compute; reflexivity|]. split; [vm_compute; discriminate|].
    intros S. assert (F : Forall (fun b => box_in b [(0, 28); (0, 4)]%Z) (map fst (rev (ex_list 27)))) by
      (vm_compute; repeat constructor; discriminate).
    apply S in F. vm_compute in F. inversion F as [|? ? ? ? [_ X] _]. now apply X.
Qed.

(** ** C83 *)
(** walk() visits the root first, each entry once, and every node after a directory that
    encloses it. *)
Lemma walk_values {V} (n : nd V) : map snd (filter fst (walk_from n)) = map fst (contents n).
Proof.
  induction n as [a p b v|a p lf b c ok ks IH] using nd_ind2; [reflexivity|].
  cbn [walk_from contents filter fst]. clear - IH. induction IH as [|k ks Hk _ IHks]; [reflexivity|].
  cbn [flat_map]. rewrite filter_app, !map_app, Hk, IHks. reflexivity.
Qed.

Lemma walk_head {V} (n : nd V) : exists w, walk_from n = (match n with NV _ _ _ _ => true | ND _ _ _ _ _ _ _ => false end, nbox n) :: w.
Proof. destruct n; eexists; reflexivity. Qed.

Lemma walk_order {V} (n : nd V) : enclosing n -> forall i x, nth_error (walk_from n) (S i) = Some x ->
  exists j b, j <= i /\ nth_error (walk_from n) j = Some (false, b) /\ box_in (snd x) b.
Proof.
  induction n as [a p b v|a p lf b c ok ks IH] using nd_ind2; intros He i x E; [destruct i; discriminate|].
  inversion He as [|? ? ? ? ? ? ? Hb Hk]; subst. cbn [walk_from] in *. cbn [nth_error] in E.
  assert (A : exists k m w, In k ks /\ nth_error (walk_from k) m = Some x /\ m <= i /\
    forall t y, nth_error (walk_from k) t = Some y -> nth_error (flat_map walk_from ks) (i - m + t) = Some y /\ w = 0).
  { clear - E. revert i E. induction ks as [|k ks IHk]; intros i E; [destruct i; discriminate|]. cbn [flat_map] in *.
    destruct (Nat.lt_ge_cases i (length (walk_from k))) as [L|L].
    - rewrite nth_error_app1 in E by exact L. exists k, i, 0. split; [now left|]. split; [exact E|]. split; [lia|].
      intros t y Hy. rewrite Nat.sub_diag. split; [|reflexivity]. cbn [plus]. rewrite nth_error_app1; [exact Hy|]. apply nth_error_Some. congruence.
    - rewrite nth_error_app2 in E by exact L. destruct (IHk _ E) as (k' & m & w & I & Em & Lm & F).
      exists k', m, w. split; [now right|]. split; [exact Em|]. split; [lia|]. intros t y Hy. destruct (F t y Hy) as [F1 F2].
      split; [|exact F2]. rewrite nth_error_app2 by lia. replace (i - m + t - length (walk_from k)) with (i - length (walk_from k) - m + t) by lia. exact F1. }
  destruct A as (k & m & w & I & Em & Lm & F). destruct m as [|m].
  - exists 0, b. split; [lia|]. split; [reflexivity|]. destruct (walk_head k) as (w' & Ew). rewrite Ew in Em. injection Em as <-.
    cbn [snd]. rewrite Forall_forall in Hb. now apply Hb.
  - rewrite Forall_forall in IH, Hk. destruct (IH k I (Hk k I) m x Em) as (j & b' & Lj & Ej & Hin).
    exists (S (i - S m + j)), b'. split; [lia|]. split; [|exact Hin]. cbn [nth_error]. exact (proj1 (F j _ Ej)).
Qed.

Theorem C83_walk : forall (V : Type) (C : cfg), traits_ok C -> forall ld (s : st V) l, managed C ld s l ->
  (exists w, walk s = (false, extent s) :: w) /\
  Permutation (map snd (filter fst (walk s))) (map fst l) /\
  (forall i x, nth_error (walk s) (S i) = Some x ->
     exists j b, j <= i /\ nth_error (walk s) j = Some (false, b) /\ box_in (snd x) b).
Proof.
  intros V C T ld s l B. destruct (managed_holds C T ld s l B) as (H & Si & P & D). split; [|split].
  - unfold walk, extent. destruct (walk_head (root s)) as (w & E). exists w. rewrite E.
    destruct Si as [[H1 Hs] _]. destruct (root s); [|reflexivity]. destruct H; [lia|contradiction].
  - unfold walk. rewrite walk_values. now apply Permutation_map.
  - apply walk_order. eapply holds_enclosing. split; [exact Si|]. split; [exact P|exact D].
Qed.
Example C83_walk_ex : length (walk (ex_tree 14)) = 22 /\ hd_error (walk (ex_tree 14)) = Some (false, [(0, 15); (0, 4)]%Z) /\ length (filter fst (walk (ex_erase 7 (ex_tree 14)))) = 13.
Proof. vm_compute. auto. Qed.

(** One query for all the theorems of this file. *)
Definition RtProps3_theorems := (@C82_extent_partial, @C82_encloses, @C82_extent_refuted, @C83_walk).
Print Assumptions RtProps3_theorems.
