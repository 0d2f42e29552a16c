(** C31 to C34 and C71: insertion and search of rtree. *)

From Coq Require Import List ZArith Lia Bool Permutation.
From Verif Require Import Base RtModel RtSpec RtBox RtPerm RtTree RtShape RtSplit RtInsert RtSearch RtObs.
Import ListNotations.
Open Scope nat_scope.

(** ** A concrete tree for the examples *)
Fixpoint ins_sorted {A} (lt : A -> A -> bool) (x : A) (l : list A) : list A :=
  match l with [] => [x] | y :: r => if lt x y then x :: l else y :: ins_sorted lt x r end.
Definition isort (A : Type) (lt : A -> A -> bool) (l : list A) : list A :=
  fold_left (fun acc x => ins_sorted lt x acc) l [].

Lemma isort_perm A (lt : A -> A -> bool) l : Permutation (isort A lt l) l.
Proof.
  assert (I : forall x l, Permutation (ins_sorted lt x l) (x :: l)).
  { intros x. induction l0 as [|y r IH]; [reflexivity|]. cbn [ins_sorted]. destruct (lt x y); [reflexivity|].
    rewrite IH. apply perm_swap. }
  unfold isort. assert (G : forall l acc, Permutation (fold_left (fun acc x => ins_sorted lt x acc) l acc) (l ++ acc)).
  { induction l0 as [|x r IH]; intros acc; [reflexivity|]. cbn [fold_left]. rewrite IH, I. symmetry. apply Permutation_middle. }
  rewrite G. now rewrite app_nil_r.
Qed.

(** 2 dimensions, 2 to 4 children, forced reinsertion of one child *)
Definition c4 : cfg := CFG 2 2 4 100 true 1 isort (fun _ => 2).
(** the default traits (rtree.hpp:52-105) *)
Definition cdef : cfg := CFG 2 40 100 100 true 30 isort (fun _ => 10).
(** at least three children *)
Definition c3 : cfg := CFG 2 3 6 100 true 1 isort (fun _ => 2).

Example traits_c4 : traits_ok c4.
Proof. constructor; cbn; try lia. intros. apply isort_perm. Qed.
Example traits_cdef : traits_ok cdef.
Proof. constructor; cbn [mn mx reins cdef]; try lia. intros. apply isort_perm. Qed.
Example traits_c3 : traits_ok c3.
Proof. constructor; cbn; try lia. intros. apply isort_perm. Qed.

Fixpoint inserts {V} (C : cfg) (l : list (box * V)) (s : st V) : res (st V) :=
  match l with
  | [] => Ok s
  | (b, v) :: r => let* s := insert C b v s in inserts C r s
  end.

Lemma inserts_built {V} C (l : list (box * V)) : forall s l0 s', built C s l0 ->
  Forall (fun e => length (fst e) = dims C) l -> inserts C l s = Ok s' -> built C s' (rev l ++ l0).
Proof.
  induction l as [|[b v] l IH]; intros s l0 s' B F E; cbn [inserts] in E.
  - injection E as <-. exact B.
  - apply Forall_cons_iff in F. destruct F as [Fb F]. destruct (insert C b v s) as [s1| |] eqn:E1; try discriminate.
    cbn [bind] in E. cbn [rev]. rewrite <- app_assoc. cbn [app]. eapply IH; [|exact F|exact E].
    eapply built_insert; eauto.
Qed.

Definition ex_box (i : Z) : box := [(i, i + 2); (i * 7 mod 5, i * 7 mod 5)]%Z.
Definition ex_list (n : nat) : list (box * nat) := map (fun i => (ex_box (Z.of_nat i), i)) (seq 0 n).
Definition ex_tree (n : nat) : st nat := match inserts c4 (ex_list n) (init c4) with Ok s => s | _ => init c4 end.

Example ex_built : built c4 (ex_tree 14) (rev (ex_list 14)).
Proof.
  rewrite <- app_nil_r. eapply inserts_built; [constructor| |].
  - vm_compute. repeat constructor.
  - vm_compute. reflexivity.
Qed.

(** ** C31 *)
(** Insertion returns normally while fewer than 2^(max_tree_depth + 2) entries are stored *)
Theorem C31_insert_returns : forall (V : Type) (C : cfg), traits_ok C -> 2 <= mn C ->
  forall (s : st V) l b v, built C s l -> length b = dims C -> length l < 2 ^ S (S (maxdepth C)) ->
  exists s', insert C b v s = Ok s'.
Proof.
  intros V C T M s l b v B Hb Hl. destruct (built_insert_outcome C T s l b v B Hb) as [H|[_ H]]; [exact H|].
  specialize (H M). lia.
Qed.

Example C31_insert_returns_ex :
  2 <= mn c4 /\ length (rev (ex_list 14)) < 2 ^ S (S (maxdepth c4)) /\ length (nkids (root (ex_tree 14))) = 2.
Proof.
  split; [cbn; lia|]. split; [|vm_compute; reflexivity].
  eapply Nat.lt_le_trans; [|apply (Nat.pow_le_mono_r 2 4); [lia|cbn [maxdepth c4]; lia]]. vm_compute. lia.
Qed.

(** No insertion history runs into undefined behaviour: all a call can do besides returning
    normally is to throw std::runtime_error (the tree is too deep) *)
Theorem C31_insert_defined : forall (V : Type) (C : cfg), traits_ok C ->
  forall (s : st V) l b v, built C s l -> length b = dims C ->
  (exists s', insert C b v s = Ok s') \/ insert C b v s = Throw E_general.
Proof.
  intros V C T s l b v B Hb. destruct (built_insert_outcome C T s l b v B Hb) as [H|[H _]]; auto.
Qed.

Example C31_insert_defined_ex : exists s', insert c4 (ex_box 3) 99 (ex_tree 14) = Ok s' /\ size s' = 15.
Proof. eexists. split; [vm_compute; reflexivity|vm_compute; reflexivity]. Qed.

(** size() counts the entries, empty() tells whether there are any *)
Theorem C31_size : forall (V : Type) (C : cfg), traits_ok C -> forall (s : st V) l, built C s l ->
  size s = length l /\ empty s = match l with [] => true | _ => false end.
Proof.
  intros V C T s l B. destruct (built_holds C T s l B) as (H & Hh & _).
  split; [eapply holds_size; eauto|]. exact (holds_empty C true 2 (mn C) H s l ltac:(lia) (t_min C T) Hh).
Qed.

Example C31_size_ex : size (ex_tree 14) = 14.
Proof. vm_compute. reflexivity. Qed.

Lemma meet_inner b q : box_ok b -> box_in b q -> boxes_meet q b.
Proof.
  intros H1 H2. exists (map fst b). induction H2 as [|i J b B Hij H2 IH]; [split; constructor|].
  inversion H1; subst. destruct IH as [I1 I2]; auto. cbn [map]. split; constructor; auto; lia.
Qed.

(** A search that covers everything finds the inserted entries, each as often as it was inserted *)
Theorem C31_all_found : forall (V : Type) (C : cfg), traits_ok C -> forall (s : st V) l, built C s l ->
  forall q, length q = dims C -> Forall (fun e => box_ok (fst e) /\ box_in (fst e) q) l -> box_ok q ->
  Permutation (found (search_overlap q s)) l.
Proof.
  intros V C T s l B q Lq Hl Pq. destruct (built_holds C T s l B) as (H & Hh & _).
  destruct (holds_overlap C true 2 (mn C) H s l q Hh Lq Pq) as (f & Hf & Hp).
  - eapply Forall_impl; [|exact Hl]. cbn. tauto.
  - rewrite Hp. clear - Hf Hl. assert (E : filter f l = l); [|rewrite E; reflexivity].
    assert (A : forall e, In e l -> f e = true).
    { intros e He. apply Hf; [exact He|]. rewrite Forall_forall in Hl. destruct (Hl e He) as [H1 H2].
      now apply meet_inner. }
    clear - A. induction l as [|x l IH]; [reflexivity|]. cbn [filter]. rewrite A by now left. f_equal. apply IH.
    intros e He. apply A. now right.
Qed.

Example C31_all_found_ex :
  Forall (fun e : box * nat => box_ok (fst e) /\ box_in (fst e) [(0, 100); (0, 100)]%Z) (rev (ex_list 14)).
Proof. vm_compute. repeat constructor; discriminate. Qed.

(** ** C32 *)
(** search(box, overlap), in any tree whose boxes enclose what is below *)
Theorem C32_overlap : forall (V : Type) (s : st V) q, enclosing (root s) -> box_ok q ->
  Forall (fun e => box_ok (fst e) /\ length (fst e) = length q) (contents (root s)) ->
  selects (fun e => boxes_meet q (fst e)) (found (search_overlap q s)) (contents (root s)).
Proof. intros V s q. exact (overlap_selects q s). Qed.

Theorem C32_match : forall (V : Type) (s : st V) q, enclosing (root s) ->
  selects (fun e => fst e = q) (found (search_match q s)) (contents (root s)).
Proof. intros V s q. exact (match_selects q s). Qed.

Theorem C32_point_overlap : forall (V : Type) (s : st V) q, enclosing (root s) ->
  Forall (fun e => length (fst e) = length q) (contents (root s)) ->
  selects (fun e => point_in q (fst e)) (found (search_pt_overlap q s)) (contents (root s)).
Proof. intros V s q. exact (pt_overlap_selects q s). Qed.

Theorem C32_point_match : forall (V : Type) (s : st V) q, enclosing (root s) ->
  selects (fun e => fst e = point_box q) (found (search_pt_match q s)) (contents (root s)).
Proof. intros V s q. exact (pt_match_selects q s). Qed.

(** Inserting a point is inserting the box that consists of it: the point is then found by
    a search for it *)
Theorem C31_insert_point : forall (V : Type) (C : cfg), traits_ok C -> forall (s : st V) l p v s',
  built C s l -> length p = dims C -> insert_pt C p v s = Ok s' ->
  built C s' ((point_box p, v) :: l) /\ In (point_box p, v) (found (search_pt_match p s')) /\
  In (point_box p, v) (found (search_pt_overlap p s')).
Proof.
  intros V C T s l p v s' B Lp E. assert (B' : built C s' ((point_box p, v) :: l)).
  { eapply built_insert; [exact B| |exact E]. unfold point_box. now rewrite map_length. }
  split; [exact B'|]. destruct (built_holds C T s' _ B') as (H & Hh & _). split.
  - destruct (holds_pt_match C true 2 (mn C) H s' _ p Hh) as (f & Hf & Hp).
    eapply Permutation_in; [symmetry; exact Hp|]. apply filter_In. split; [now left|]. apply Hf; [now left|reflexivity].
  - destruct (holds_pt_overlap C true 2 (mn C) H s' _ p Hh Lp) as (f & Hf & Hp).
    eapply Permutation_in; [symmetry; exact Hp|]. apply filter_In. split; [now left|]. apply Hf; [now left|].
    cbn [fst]. clear. unfold point_in, point_box. induction p as [|x p IH]; cbn [map]; constructor; cbn [fst snd]; [lia|exact IH].
Qed.

(** The same for trees built by insertions, in terms of the entries inserted *)
Theorem C32_built_overlap : forall (V : Type) (C : cfg), traits_ok C -> forall (s : st V) l, built C s l ->
  forall q, length q = dims C -> box_ok q -> Forall (fun e => box_ok (fst e)) l ->
  selects (fun e => boxes_meet q (fst e)) (found (search_overlap q s)) l.
Proof.
  intros V C T s l B q Lq Pq Pl. destruct (built_holds C T s l B) as (H & Hh & _). eapply holds_overlap; eauto.
Qed.

Theorem C32_built_match : forall (V : Type) (C : cfg), traits_ok C -> forall (s : st V) l, built C s l ->
  forall q, selects (fun e => fst e = q) (found (search_match q s)) l.
Proof. intros V C T s l B q. destruct (built_holds C T s l B) as (H & Hh & _). eapply holds_match; eauto. Qed.

Theorem C32_built_point_overlap : forall (V : Type) (C : cfg), traits_ok C -> forall (s : st V) l, built C s l ->
  forall q, length q = dims C -> selects (fun e => point_in q (fst e)) (found (search_pt_overlap q s)) l.
Proof. intros V C T s l B q Lq. destruct (built_holds C T s l B) as (H & Hh & _). eapply holds_pt_overlap; eauto. Qed.

Theorem C32_built_point_match : forall (V : Type) (C : cfg), traits_ok C -> forall (s : st V) l, built C s l ->
  forall q, selects (fun e => fst e = point_box q) (found (search_pt_match q s)) l.
Proof. intros V C T s l B q. destruct (built_holds C T s l B) as (H & Hh & _). eapply holds_pt_match; eauto. Qed.

Example C31_insert_point_ex : exists s', insert_pt c4 [7; 3]%Z 50 (ex_tree 14) = Ok s' /\
  map snd (found (search_pt_match [7; 3]%Z s')) = [50].
Proof. eexists. split; [vm_compute; reflexivity|vm_compute; reflexivity]. Qed.

Example C32_overlap_ex :
  map snd (found (search_overlap [(4, 5); (0, 1)]%Z (ex_tree 14))) = [5; 3] /\
  boxes_meet [(4, 5); (0, 1)]%Z (ex_box 5) /\ ~ boxes_meet [(4, 5); (0, 1)]%Z (ex_box 4).
Proof.
  split; [vm_compute; reflexivity|]. split.
  - exists [5; 0]%Z. split; repeat constructor; cbn; lia.
  - intros (p & H1 & H2). destruct p as [|x [|y p]]; inversion H1 as [|? ? ? ? _ K1]; subst; inversion K1; subst.
    inversion H2 as [|? ? ? ? _ K2]; subst. inversion K2; subst. cbn in *. lia.
Qed.
Example C32_overlap_hyp : enclosing (root (ex_tree 14)) /\ box_ok [(4, 5); (0, 1)]%Z /\
  Forall (fun e => box_ok (fst e) /\ length (fst e) = 2) (contents (root (ex_tree 14))).
Proof.
  split; [|split].
  - vm_compute. repeat constructor; discriminate.
  - repeat constructor; discriminate.
  - vm_compute. repeat constructor; discriminate.
Qed.
Example C32_match_ex : map snd (found (search_match (ex_box 7) (ex_tree 14))) = [7].
Proof. vm_compute. reflexivity. Qed.
Example C32_point_ex : map snd (found (search_pt_overlap [6; 3]%Z (ex_tree 14))) = [4] /\
  search_pt_match [6; 3]%Z (ex_tree 14) = [].
Proof. split; vm_compute; reflexivity. Qed.

(** The iterators of a result lead to the entry they show, in trees whose objects are distinct *)
Theorem C32_result_entry : forall (V : Type) (C : cfg), traits_ok C -> forall (s : st V) l, built C s l ->
  forall q a d b v, In (a, d, b, v) (search_overlap q s) ->
  (exists p, get a (root s) = Some (NV a p b v)) /\ In (b, v) l.
Proof.
  intros V C T s l B q a d b v I. destruct (built_holds C T s l B) as (H & (Si & P & _) & _).
  apply search_descend_in in I. destruct I as (p & _ & I2 & I3). split.
  - exists p. apply I3. apply Si.
  - eapply Permutation_in; [exact P|]. rewrite contents_entries. exact I2.
Qed.

Example C32_result_entry_ex : exists a d b, In (a, d, b, 7) (search_overlap (ex_box 7) (ex_tree 14)).
Proof. exists 17, 3, (ex_box 7). vm_compute. left. reflexivity. Qed.

(** ** C33 *)
Theorem C33_balanced : forall (V : Type) (C : cfg), traits_ok C -> forall (s : st V) l, built C s l ->
  exists d, Forall (fun x => x = d) (value_depths 0 (root s)).
Proof. intros V C T s l B. destruct (built_holds C T s l B) as (H & Hh & _). exists H. eapply holds_depths; eauto. Qed.

Theorem C33_fill : forall (V : Type) (C : cfg), traits_ok C -> forall (s : st V) l, built C s l ->
  Forall (fun x => mn C <= x <= mx C) (fills_below (root s)) /\ length (nkids (root s)) <= mx C.
Proof. intros V C T s l B. destruct (built_holds C T s l B) as (H & Hh & _). eapply holds_fills; eauto. Qed.

Example C33_ex : fills_below (root (ex_tree 14)) = [2; 3; 3; 3; 2; 3; 3] /\
  value_depths 0 (root (ex_tree 14)) = repeat 3 14.
Proof. split; vm_compute; reflexivity. Qed.

(** ** C34 *)
Theorem C34_extent : forall (V : Type) (C : cfg), traits_ok C -> forall (s : st V) l, built C s l -> l <> [] ->
  smallest_around (extent s) (map fst l).
Proof. intros V C T s l B N. destruct (built_holds C T s l B) as (H & Hh & _). exact (holds_extent C 2 (mn C) H s l (t_min C T) Hh N). Qed.

Example C34_extent_ex : extent (ex_tree 14) = [(0, 15); (0, 4)]%Z /\ rev (ex_list 14) <> [].
Proof. split; [vm_compute; reflexivity|discriminate]. Qed.

(** ** C71 *)
(** check_integrity accepts every tree built by insertions when it does not check the minimum fill *)
Theorem C71_integrity : forall (V : Type) (C : cfg), traits_ok C -> forall (s : st V) l, built C s l ->
  check_integrity C false s = true.
Proof. intros V C T s l B. destruct (built_holds C T s l B) as (H & Hh & _). apply (holds_integrity C 2 (mn C) H s l _ (t_min C T) (le_n _) Hh); auto. Qed.

Theorem C71_integrity_min_partial : forall (V : Type) (C : cfg), traits_ok C -> mn C <= 2 ->
  forall (s : st V) l, built C s l -> check_integrity C true s = true.
Proof. intros V C T M s l B. destruct (built_holds C T s l B) as (H & Hh & _). apply (holds_integrity C 2 (mn C) H s l _ (t_min C T) (le_n _) Hh); auto. Qed.

Example C71_ex : mn c4 <= 2 /\ check_integrity c4 true (ex_tree 14) = true.
Proof. split; [cbn; lia|vm_compute; reflexivity]. Qed.

(** With error_on_min_node_size and a minimum above two it rejects a tree right after the root was
    split, as the root then has two children *)
Theorem C71_integrity_min_refuted : exists (s : st nat) l, traits_ok c3 /\ built c3 s l /\ check_integrity c3 true s = false.
Proof.
  exists (match inserts c3 (ex_list 8) (init c3) with Ok s => s | _ => init c3 end), (rev (ex_list 8)).
  split; [exact traits_c3|]. split; [|vm_compute; reflexivity].
  rewrite <- (app_nil_r (rev _)). eapply inserts_built; [constructor| |].
  - vm_compute. repeat constructor.
  - vm_compute. reflexivity.
Qed.

(** One query for all the theorems of this file. *)
Definition RtProps_theorems :=
  (@C31_insert_returns, @C31_insert_defined, @C31_size, @C31_insert_point, @C31_all_found,
   @C32_overlap, @C32_match, @C32_point_overlap, @C32_point_match,
   @C32_built_overlap, @C32_built_match, @C32_built_point_overlap, @C32_built_point_match,
   @C32_result_entry, @C33_balanced, @C33_fill, @C34_extent,
   @C71_integrity, @C71_integrity_min_partial, @C71_integrity_min_refuted).
Print Assumptions RtProps_theorems.
