(** C35, C36 and C70: bulk loading, copies and removal in rtree. *)

From Coq Require Import List ZArith Lia Bool Permutation.
From Verif Require Import Base RtModel RtSpec RtSpec2 RtBox RtPerm RtTree RtShape RtSplit RtInsert RtSearch RtObs RtErase RtErase2 RtBulk RtObs2 RtProps.
Import ListNotations.
Open Scope nat_scope.

(** ** Concrete histories for the examples *)
Definition ex_all (s : st nat) := search_overlap [(-100, 100); (-100, 100)]%Z s.
Definition ex_at (s : st nat) (v : nat) : nat * nat :=
  match List.find (fun x => Nat.eqb (snd x) v) (ex_all s) with Some (a, d, _, _) => (a, d) | None => (0, 0) end.
Definition ex_erase (v : nat) (s : st nat) : st nat :=
  match erase c4 (fst (ex_at s v)) (snd (ex_at s v)) s with Ok s' => s' | _ => s end.
Definition ex_load (n : nat) : st nat := match bulk_load c4 (ex_list n) with Ok s => s | _ => init c4 end.
Definition ex_more (l : list (box * nat)) (s : st nat) : st nat := match inserts c4 l s with Ok s => s | _ => s end.

Lemma built_kept {V} C (s : st V) l : built C s l -> kept C s l.
Proof. induction 1; [constructor|eapply kept_insert; eauto|eapply kept_clear; eauto]. Qed.

Lemma result_entry {V} (s : st V) dc vc a d b v tg rl kl C H : sinv C tg rl kl H s -> In (a, d, b, v) (search_descend dc vc 0 (root s)) ->
  (exists p, get a (root s) = Some (NV a p b v)) /\ In (b, v) (contents (root s)).
Proof.
  intros Si I. apply search_descend_in in I. destruct I as (p & _ & I2 & I3). rewrite contents_entries. split; [|exact I2].
  exists p. apply I3. apply Si.
Qed.

(** ** C70 *)
(** Removal of an entry found by a search, where its leaf directory need not be dissolved: it
    returns normally and takes away that entry only. Histories of insertions, such removals and
    clears keep every property of C31 to C34 and C71 *)
Theorem C70_erase_kept : forall (V : Type) (C : cfg), traits_ok C -> forall (s : st V) l, kept C s l ->
  forall q a d b v, In (a, d, b, v) (search_overlap q s) -> leaf_stays C a s ->
  exists s' l', erase C a d s = Ok s' /\ Permutation l ((b, v) :: l') /\ kept C s' l'.
Proof.
  intros V C T s l B q a d b v I Hl. destruct (kept_holds C T s l B) as (H & (Si & P & _) & _).
  destruct (result_entry s _ _ a d b v _ _ _ _ _ Si I) as ((p & Hg) & Ie).
  destruct (kept_erase_outcome C T s l a d p b v B Hg Hl) as (s' & E).
  apply (Permutation_in _ P) in Ie. destruct (in_split _ _ Ie) as (l1 & l2 & ->).
  exists s', (l1 ++ l2). assert (Pl : Permutation (l1 ++ (b, v) :: l2) ((b, v) :: l1 ++ l2)) by (symmetry; apply Permutation_middle).
  split; [exact E|]. split; [exact Pl|]. eapply kept_erase; eauto.
Qed.

Theorem C70_kept_observed : forall (V : Type) (C : cfg), traits_ok C -> forall (s : st V) l, kept C s l ->
  size s = length l /\ empty s = match l with [] => true | _ => false end /\
  (exists d, Forall (fun x => x = d) (value_depths 0 (root s))) /\
  Forall (fun x => mn C <= x <= mx C) (fills_below (root s)) /\ length (nkids (root s)) <= mx C /\
  (l <> [] -> smallest_around (extent s) (map fst l)) /\
  check_integrity C false s = true.
Proof.
  intros V C T s l B. destruct (kept_holds C T s l B) as (H & Hh & _). split; [eapply holds_size; eauto|].
  split; [exact (holds_empty C true 2 (mn C) H s l ltac:(lia) (t_min C T) Hh)|]. split; [exists H; eapply holds_depths; eauto|].
  destruct (holds_fills _ _ _ _ _ _ _ Hh) as [F1 F2]. split; [exact F1|]. split; [exact F2|].
  split; [exact (holds_extent C 2 (mn C) H s l (t_min C T) Hh)|]. apply (holds_integrity C 2 (mn C) H s l _ (t_min C T) (le_n _) Hh); auto.
Qed.

Theorem C70_kept_searches : forall (V : Type) (C : cfg), traits_ok C -> forall (s : st V) l, kept C s l ->
  (forall q, length q = dims C -> box_ok q -> Forall (fun e => box_ok (fst e)) l ->
     selects (fun e => boxes_meet q (fst e)) (found (search_overlap q s)) l) /\
  (forall q, selects (fun e => fst e = q) (found (search_match q s)) l) /\
  (forall p, length p = dims C -> selects (fun e => point_in p (fst e)) (found (search_pt_overlap p s)) l) /\
  (forall p, selects (fun e => fst e = point_box p) (found (search_pt_match p s)) l).
Proof.
  intros V C T s l B. destruct (kept_holds C T s l B) as (H & Hh & _).
  split; [intros; eapply holds_overlap; eauto|]. split; [intros; eapply holds_match; eauto|].
  split; [intros; eapply holds_pt_overlap; eauto|intros; eapply holds_pt_match; eauto].
Qed.

(** Insertion after removals *)
Theorem C70_kept_insert : forall (V : Type) (C : cfg), traits_ok C -> 2 <= mn C -> forall (s : st V) l b v, kept C s l ->
  length b = dims C -> length l < 2 ^ S (S (maxdepth C)) -> exists s', insert C b v s = Ok s' /\ kept C s' ((b, v) :: l).
Proof.
  intros V C T M s l b v B Hb Hl. destruct (kept_insert_outcome C T s l b v B Hb) as [(s' & E)|[_ K]].
  - exists s'. split; [exact E|]. eapply kept_insert; eauto.
  - specialize (K M). lia.
Qed.

Example C70_kept_ex :
  leaf_stays c4 (fst (ex_at (ex_tree 14) 9)) (ex_tree 14) /\ map snd (contents (root (ex_erase 9 (ex_tree 14)))) <> [] /\
  size (ex_erase 9 (ex_tree 14)) = 13 /\ search_match (ex_box 9) (ex_erase 9 (ex_tree 14)) = [] /\
  In (ex_at (ex_tree 14) 9, ex_box 9, 9) (search_overlap (ex_box 9) (ex_tree 14)).
Proof.
  split; [exists [2; 3], 3; split; [vm_compute; reflexivity|right; cbn; lia]|].
  split; [vm_compute; discriminate|]. split; [vm_compute; reflexivity|]. split; [vm_compute; reflexivity|vm_compute; now left].
Qed.

(** Removal in the wider class of histories: also where the leaf directory is dissolved and
    its entries are inserted again, after copies, moves and bulk loads *)
Theorem C70_erase_partial : forall (V : Type) (C : cfg), traits_ok C -> forall ld (s : st V) l, managed C ld s l ->
  forall q a d b v, In (a, d, b, v) (search_overlap q s) -> leaf_stays C a s \/ leaf_goes C a s ->
  (exists s' l', erase C a d s = Ok s' /\ Permutation l ((b, v) :: l') /\ managed C ld s' l') \/
  (erase C a d s = Throw E_general /\ (ld = false -> 2 <= mn C -> 2 ^ S (maxdepth C) <= length l)).
Proof.
  intros V C T ld s l B q a d b v I Hl. destruct (managed_holds C T ld s l B) as (H & Si & P & _).
  destruct (result_entry s _ _ a d b v _ _ _ _ _ Si I) as ((p & Hg) & Ie).
  destruct (managed_erase_outcome C T ld s l a d p b v B Hg Hl) as [(s' & E)|R]; [left|right; exact R].
  apply (Permutation_in _ P) in Ie. destruct (in_split _ _ Ie) as (l1 & l2 & ->).
  exists s', (l1 ++ l2). assert (Pl : Permutation (l1 ++ (b, v) :: l2) ((b, v) :: l1 ++ l2)) by (symmetry; apply Permutation_middle).
  split; [exact E|]. split; [exact Pl|]. eapply managed_erase; eauto.
Qed.

Theorem C70_managed_observed : forall (V : Type) (C : cfg), traits_ok C -> forall ld (s : st V) l, managed C ld s l ->
  size s = length l /\ empty s = match l with [] => true | _ => false end /\
  (exists d, Forall (fun x => x = d) (value_depths 0 (root s))) /\
  Forall (fun x => (if ld then 1 else mn C) <= x <= mx C) (fills_below (root s)) /\ length (nkids (root s)) <= mx C /\
  Forall (fun e => box_in (fst e) (extent s)) l.
Proof.
  intros V C T ld s l B. destruct (managed_holds C T ld s l B) as (H & Hh). split; [eapply holds_size; eauto|].
  split; [exact (holds_empty C false 1 (kld C ld) H s l (le_n 1) (kld1 C T ld) Hh)|]. split; [exists H; eapply holds_depths; eauto|].
  destruct (holds_fills _ _ _ _ _ _ _ Hh) as [F1 F2]. split; [exact F1|]. split; [exact F2|]. eapply holds_extent_in; eauto.
Qed.

Theorem C70_managed_searches : forall (V : Type) (C : cfg), traits_ok C -> forall ld (s : st V) l, managed C ld s l ->
  (forall q, length q = dims C -> box_ok q -> Forall (fun e => box_ok (fst e)) l ->
     selects (fun e => boxes_meet q (fst e)) (found (search_overlap q s)) l) /\
  (forall q, selects (fun e => fst e = q) (found (search_match q s)) l) /\
  (forall p, length p = dims C -> selects (fun e => point_in p (fst e)) (found (search_pt_overlap p s)) l) /\
  (forall p, selects (fun e => fst e = point_box p) (found (search_pt_match p s)) l).
Proof.
  intros V C T ld s l B. destruct (managed_holds C T ld s l B) as (H & Hh).
  split; [intros; eapply holds_overlap; eauto|]. split; [intros; eapply holds_match; eauto|].
  split; [intros; eapply holds_pt_overlap; eauto|intros; eapply holds_pt_match; eauto].
Qed.

Theorem C70_managed_insert : forall (V : Type) (C : cfg), traits_ok C -> forall ld (s : st V) l b v, managed C ld s l ->
  length b = dims C -> has_room C s ->
  (exists s', insert C b v s = Ok s' /\ managed C ld s' ((b, v) :: l)) \/
  (insert C b v s = Throw E_general /\ (ld = false -> 2 <= mn C -> 2 ^ S (maxdepth C) <= length l)).
Proof.
  intros V C T ld s l b v B Hb Hr. destruct (managed_insert_outcome C T ld s l b v B Hb Hr) as [(s' & E)|R]; [left|right; exact R].
  exists s'. split; [exact E|]. eapply managed_insert; eauto.
Qed.

(** A leaf that is dissolved: [sizes_above] of entry 7 is [2; 3; 2] *)
Example C70_erase_ex :
  leaf_goes c4 (fst (ex_at (ex_tree 14) 7)) (ex_tree 14) /\ size (ex_erase 7 (ex_tree 14)) = 13 /\
  search_match (ex_box 7) (ex_erase 7 (ex_tree 14)) = [] /\ map snd (found (search_match (ex_box 6) (ex_erase 7 (ex_tree 14)))) = [6].
Proof.
  split; [exists [2], 3, 2; split; [vm_compute; reflexivity|split; [cbn; lia|right]]|repeat split; vm_compute; reflexivity].
  split; [discriminate|]. split; [cbn; lia|]. vm_compute. discriminate.
Qed.

Lemma tree_built (n : nat) : (match inserts c4 (ex_list n) (init c4) with Ok _ => true | _ => false end) = true ->
  forallb (fun e => Nat.eqb (length (fst e)) 2) (ex_list n) = true -> built c4 (ex_tree n) (rev (ex_list n)).
Proof.
  intros H F. rewrite <- (app_nil_r (rev _)). eapply inserts_built; [constructor| |].
  - rewrite forallb_forall in F. apply Forall_forall. intros e He. apply Nat.eqb_eq. exact (F e He).
  - unfold ex_tree. destruct (inserts c4 (ex_list n) (init c4)); congruence.
Qed.

(** Without the condition the claim fails: in a tree of 35 entries made by insertions only, the
    removal of one of them runs into undefined behaviour. It dissolves two levels. The erasure
    in the middle of a directory moves the siblings to other addresses, their children keep
    the old parent pointers because the directory is marked valid
    (rtree_def.inl:1636, 704-708), and the reinsertion follows one of them *)
Theorem C70_erase_refuted : exists (s : st nat) l a d b v,
  built c4 s l /\ In (a, d, b, v) (search_overlap b s) /\ erase c4 a d s = Undef.
Proof.
  exists (ex_tree 35), (rev (ex_list 35)), (fst (ex_at (ex_tree 35) 22)), (snd (ex_at (ex_tree 35) 22)), (ex_box 22), 22.
  split; [apply tree_built; vm_compute; reflexivity|]. split; [|vm_compute; reflexivity].
  assert (E : existsb (fun x => match x with (a, d, b, v) => Nat.eqb a (fst (ex_at (ex_tree 35) 22)) && Nat.eqb d (snd (ex_at (ex_tree 35) 22)) && box_eqb b (ex_box 22) && Nat.eqb v 22 end)
     (search_overlap (ex_box 22) (ex_tree 35)) = true) by (vm_compute; reflexivity).
  apply existsb_exists in E. destruct E as ([[[a d] b] v] & I & E). rewrite !andb_true_iff, !Nat.eqb_eq in E. destruct E as [[[E1 E2] E3] E4].
  subst v. rewrite <- E1, <- E2. assert (b = ex_box 22) by (revert E3; apply box_eqb_eq). subst b. exact I.
Qed.

(** The same cascade can return normally and leave values at two different depths *)
Theorem C70_depth_refuted : exists (s s' : st nat) l a d b v,
  built c4 s l /\ In (a, d, b, v) (search_overlap b s) /\ erase c4 a d s = Ok s' /\
  ~ exists h, Forall (fun x => x = h) (value_depths 0 (root s')).
Proof.
  exists (ex_tree 35), (ex_erase 6 (ex_tree 35)), (rev (ex_list 35)), (fst (ex_at (ex_tree 35) 6)), (snd (ex_at (ex_tree 35) 6)), (ex_box 6), 6.
  split; [apply tree_built; vm_compute; reflexivity|]. split; [|split; [vm_compute; reflexivity|]].
  - assert (E : existsb (fun x => match x with (a, d, b, v) => Nat.eqb a (fst (ex_at (ex_tree 35) 6)) && Nat.eqb d (snd (ex_at (ex_tree 35) 6)) && box_eqb b (ex_box 6) && Nat.eqb v 6 end)
       (search_overlap (ex_box 6) (ex_tree 35)) = true) by (vm_compute; reflexivity).
    apply existsb_exists in E. destruct E as ([[[a d] b] v] & I & E). rewrite !andb_true_iff, !Nat.eqb_eq in E. destruct E as [[[E1 E2] E3] E4].
    subst v. rewrite <- E1, <- E2. assert (b = ex_box 6) by (revert E3; apply box_eqb_eq). subst b. exact I.
  - set (D := value_depths 0 (root (ex_erase 6 (ex_tree 35)))).
    assert (E3 : existsb (Nat.eqb 3) D = true) by (vm_compute; reflexivity).
    assert (E4 : existsb (Nat.eqb 4) D = true) by (vm_compute; reflexivity).
    clearbody D. intros (h & F). rewrite Forall_forall in F.
    apply existsb_exists in E3. destruct E3 as (x & I3 & E3). apply Nat.eqb_eq in E3. subst x.
    apply existsb_exists in E4. destruct E4 as (x & I4 & E4). apply Nat.eqb_eq in E4. subst x.
    pose proof (F 3 I3). pose proof (F 4 I4). lia.
Qed.

(** ** C36 *)
(** Copies, moves, swaps and assignments hold the entries of their source, and no query tells
    them from it *)
Theorem C36_same : forall (V : Type) (C : cfg) (s1 s2 : st V),
  Forall (fun p => looks_same (fst p) (snd p) /\ contents (root (fst p)) = contents (root (snd p)))
    [(copy s1, s1); (fst (move C s1), s1); (fst (swap s1 s2), s2); (snd (swap s1 s2), s1);
     (assign s1 s2, s2); (fst (move_assign C s1 s2), s2)].
Proof.
  intros V C s1 s2. repeat apply Forall_cons; try apply Forall_nil; cbn [fst snd move swap assign move_assign];
    apply strip_same; now rewrite ?rehome_strip, ?copy_strip, ?rehome_strip.
Qed.

Example C36_same_ex : map snd (found (search_overlap [(4, 5); (0, 1)]%Z (copy (ex_tree 14)))) = [5; 3] /\
  root (copy (ex_tree 14)) <> root (ex_tree 14).
Proof. split; [vm_compute; reflexivity|vm_compute; discriminate]. Qed.

(** They are as usable as trees built in place as long as no insertion can split their root *)
Theorem C36_usable_partial : forall (V : Type) (C : cfg) ld (s1 s2 : st V) l1 l2, managed C ld s1 l1 -> managed C ld s2 l2 ->
  managed C ld (copy s1) l1 /\
  managed C ld (fst (move C s1)) l1 /\ managed C ld (snd (move C s1)) [] /\
  managed C ld (fst (swap s1 s2)) l2 /\ managed C ld (snd (swap s1 s2)) l1 /\
  managed C ld (assign s1 s2) l2 /\
  managed C ld (fst (move_assign C s1 s2)) l2 /\ managed C ld (snd (move_assign C s1 s2)) [].
Proof.
  intros V C ld s1 s2 l1 l2 B1 B2. unfold move, swap, assign, move_assign, swap, move. cbn [fst snd].
  repeat split; eauto using managed_copy, managed_rehome, managed_new.
Qed.

Lemma built_managed_ex : managed c4 false (ex_tree 3) (rev (ex_list 3)).
Proof.
  unfold ex_tree. cbn [rev ex_list seq map app].
  pose (s1 := ex_more [(ex_box 0, 0)] (init c4)). pose (s2 := ex_more [(ex_box 1, 1)] s1).
  eapply (managed_insert c4 false s2); [eapply (managed_insert c4 false s1); [eapply (managed_insert c4 false (init c4)); [constructor| | |]| | |]| | |];
    try (vm_compute; reflexivity); vm_compute; discriminate.
Qed.
Example C36_usable_ex : managed c4 false (copy (ex_tree 3)) (rev (ex_list 3)) /\ has_room c4 (copy (ex_tree 3)) /\
  pinned (copy (ex_tree 3)) = true.
Proof.
  split; [apply managed_copy, built_managed_ex|]. split; [vm_compute; intros _; repeat constructor|vm_compute; reflexivity].
Qed.

(** Once the root of a copy splits, an erasure may do nothing: the call returns and the entry
    is still there. The copy held four entries, one was inserted *)
Theorem C36_erase_refuted : exists (s s1 : st nat) l a d b v,
  built c4 s l /\ insert c4 (ex_box 4) 4 (copy s) = Ok s1 /\ In (a, d, b, v) (search_match b s1) /\
  exists s2, erase c4 a d s1 = Ok s2 /\ size s2 = size s1 /\ In (b, v) (found (search_match b s2)).
Proof.
  pose (s1 := ex_more [(ex_box 4, 4)] (copy (ex_tree 4))).
  exists (ex_tree 4), s1, (rev (ex_list 4)), (fst (ex_at s1 0)), (snd (ex_at s1 0)), (ex_box 0), 0.
  split; [apply tree_built; vm_compute; reflexivity|]. split; [vm_compute; reflexivity|].
  split; [vm_compute; now left|]. exists (ex_erase 0 s1). split; [vm_compute; reflexivity|]. split; [vm_compute; reflexivity|vm_compute; now left].
Qed.

(** An entry inserted later may not be found *)
Theorem C36_search_refuted : exists (s s1 s2 : st nat) l b v,
  built c4 s l /\ insert c4 (ex_box 12) 12 (copy s) = Ok s1 /\ insert c4 b v s1 = Ok s2 /\
  size s2 = length l + 2 /\ search_match b s2 = [] /\ search_overlap b s2 = [].
Proof.
  pose (s1 := ex_more [(ex_box 12, 12)] (copy (ex_tree 12))). pose (b := [(-50, -49); (0, 0)]%Z).
  exists (ex_tree 12), s1, (ex_more [(b, 77)] s1), (rev (ex_list 12)), b, 77.
  split; [apply tree_built; vm_compute; reflexivity|]. repeat split; vm_compute; reflexivity.
Qed.

(** ** C35 *)
(** Whatever the number of dimensions: when pack() returns, the tree holds the entries given to
    it, all at the same depth, and searches are exact *)
Theorem C35_bulk_contents : forall (V : Type) (C : cfg), traits_ok C -> (forall n, mx C < n -> 1 <= spl C n) ->
  forall (l : list (box * V)) s, Forall (fun e => length (fst e) = dims C) l -> bulk_load C l = Ok s ->
  Permutation (contents (root s)) l /\ size s = length l /\ (exists d, Forall (fun x => x = d) (value_depths 0 (root s))) /\
  enclosing (root s) /\ (l <> [] -> smallest_around (extent s) (map fst l)).
Proof.
  intros V C T Hs l s F E. destruct (bulk_any C T l s Hs F E) as (H & Hh). split; [apply Hh|].
  split; [eapply holds_size; eauto|]. split; [exists H; eapply holds_depths; eauto|]. split; [eapply holds_enclosing; eauto|].
  eapply holds_extent; [|exact Hh]. apply le_n.
Qed.

Theorem C35_bulk_searches : forall (V : Type) (C : cfg), traits_ok C -> (forall n, mx C < n -> 1 <= spl C n) ->
  forall (l : list (box * V)) s, Forall (fun e => length (fst e) = dims C) l -> bulk_load C l = Ok s ->
  (forall q, length q = dims C -> box_ok q -> Forall (fun e => box_ok (fst e)) l ->
     selects (fun e => boxes_meet q (fst e)) (found (search_overlap q s)) l) /\
  (forall q, selects (fun e => fst e = q) (found (search_match q s)) l) /\
  (forall p, length p = dims C -> selects (fun e => point_in p (fst e)) (found (search_pt_overlap p s)) l) /\
  (forall p, selects (fun e => fst e = point_box p) (found (search_pt_match p s)) l).
Proof.
  intros V C T Hs l s F E. destruct (bulk_any C T l s Hs F E) as (H & Hh).
  split; [intros; eapply holds_overlap; eauto|]. split; [intros; eapply holds_match; eauto|].
  split; [intros; eapply holds_pt_overlap; eauto|intros; eapply holds_pt_match; eauto].
Qed.

(** No directory holds more than max_node_size children, although only the first piece is looked
    at before the next dimension *)
Theorem C35_bulk_capacity : forall (V : Type) (C : cfg), traits_ok C ->
  (forall n, mx C < n -> pieces_ok C n) ->
  forall (l : list (box * V)) s, Forall (fun e => length (fst e) = dims C) l -> bulk_load C l = Ok s ->
  Forall (fun x => 1 <= x <= mx C) (fills_below (root s)) /\ length (nkids (root s)) <= mx C.
Proof.
  intros V C T Hs l s F E. destruct (bulk_flat C T l s Hs F E) as (H & Hh & _). eapply holds_fills; eauto.
Qed.

Lemma reach_closed p m : 3 <= p -> forall j, reach p m j + 3 <= (p + m + 3) * p ^ j.
Proof.
  intros Hp. induction j as [|j IH]; cbn [reach]; [rewrite Nat.pow_0_r; lia|]. rewrite Nat.pow_succ_r'.
  replace ((p + m + 3) * (p * p ^ j)) with (p * ((p + m + 3) * p ^ j)) by lia. set (x := (p + m + 3) * p ^ j) in *. nia.
Qed.

(** pack() returns when the number of pieces per dimension does not exceed max_node_size, or is
    small enough for the number of nodes. What is missing: the other numbers of pieces *)
Theorem C35_bulk_returns_partial : forall (V : Type) (C : cfg), traits_ok C -> 1 <= dims C -> (forall n, mx C < n -> 1 <= spl C n) ->
  forall (l : list (box * V)),
  (forall n, mx C < n <= length l -> spl C n <= mx C \/ (spl C n + mn C + 3) * spl C n ^ (dims C - 1) <= n) ->
  Forall (fun e => length (fst e) = dims C) l -> exists s, bulk_load C l = Ok s.
Proof.
  intros V C T Hd Hs l Hn F. apply (bulk_ends C T l); [|exact Hs|exact F]. intros n H.
  destruct (le_lt_dec (spl C n) (mx C)) as [|Hlt]; [auto|]. right. split; [exact Hd|].
  destruct (Hn n H) as [|Hr]; [lia|]. pose proof (t_min C T). pose proof (t_max C T).
  pose proof (reach_closed (spl C n) (mn C) ltac:(lia) (dims C - 1)). lia.
Qed.

(** In one and two dimensions it always returns, given the smallest number of pieces that is
    large enough and a max_node_size of at least three *)
Theorem C35_bulk_returns_plane : forall (V : Type) (C : cfg), traits_ok C -> 1 <= dims C <= 2 -> 3 <= mx C ->
  (forall n, mx C < n -> pieces_least C n) ->
  forall (l : list (box * V)), Forall (fun e => length (fst e) = dims C) l -> exists s, bulk_load C l = Ok s.
Proof.
  intros V C T Hd Hm Hp l F. apply (bulk_ends C T l); [|intros n H; apply Hp; exact H|exact F]. intros n H.
  destruct (le_lt_dec (spl C n) (mx C)) as [|Hlt]; [auto|]. right. split; [lia|].
  destruct (Hp n (proj1 H)) as [_ L]. pose proof (t_min C T) as M1. pose proof (t_max C T) as M2.
  set (p := spl C n) in *. assert (E : exists q, p = 2 + q) by (exists (p - 2); lia). destruct E as [q E]. rewrite E in *.
  replace (2 + q - 1) with (1 + q) in L by lia.
  destruct (dims C) as [|[|[|d]]]; try lia.
  - cbn [Nat.sub reach]. rewrite Nat.pow_1_r in L. nia.
  - cbn [Nat.sub reach]. rewrite Nat.pow_2_r in L.
    assert (Hq : 2 <= q) by lia. assert (Q : mn C * 2 <= mx C) by lia.
    destruct (Nat.eq_dec (mx C) 3) as [E3|N3].
    + rewrite E3 in *. assert (E1 : mn C = 1) by lia. rewrite E1 in *. nia.
    + assert (Q1 : 4 * (2 * q * q + 3 * q) <= mx C * (2 * q * q + 3 * q)) by (apply Nat.mul_le_mono_r; lia).
      assert (Q2 : (2 + q) * (2 * mn C) <= (2 + q) * mx C) by (apply Nat.mul_le_mono_l; lia). nia.
Qed.

(** The number of pieces the code computes, with exact instead of single precision arithmetic *)
Fixpoint root_up (fuel d t i : nat) : nat :=
  match fuel with O => i | S f => if Nat.leb t (i ^ d) then i else root_up f d t (S i) end.
Definition pieces (d m n : nat) : nat := root_up n d (Nat.div (n + m - 1) m) 1.
Definition c4b : cfg := CFG 2 2 4 100 true 1 isort (pieces 2 4).

Lemma root_up_ok d t : 1 <= d -> forall fuel i, t <= i + fuel -> 1 <= i -> t <= root_up fuel d t i ^ d /\ 1 <= root_up fuel d t i.
Proof.
  intros Hd. induction fuel as [|f IH]; intros i H Hi; cbn [root_up].
  - split; [|exact Hi]. apply Nat.le_trans with (i ^ 1); [rewrite Nat.pow_1_r; lia|]. apply Nat.pow_le_mono_r; lia.
  - destruct (Nat.leb_spec t (i ^ d)); [auto|]. apply IH; lia.
Qed.
Lemma root_up_least d t : 1 <= t -> forall fuel i, (i - 1) ^ d < t -> (root_up fuel d t i - 1) ^ d < t.
Proof.
  intros Ht. induction fuel as [|f IH]; intros i Hi; cbn [root_up]; [exact Hi|].
  destruct (Nat.leb_spec t (i ^ d)); [exact Hi|]. apply IH. now replace (S i - 1) with i by lia.
Qed.
Lemma pieces_exact C : 1 <= dims C -> 1 <= mx C -> (forall n, spl C n = pieces (dims C) (mx C) n) -> forall n, mx C < n -> pieces_least C n.
Proof.
  intros Hd Hm E n Hn. unfold pieces_least, pieces_ok. rewrite E. unfold pieces.
  pose proof (Nat.div_mod (n + mx C - 1) (mx C) ltac:(lia)) as D. pose proof (Nat.mod_upper_bound (n + mx C - 1) (mx C) ltac:(lia)) as U.
  set (t := (n + mx C - 1) / mx C) in *. assert (Ht : 1 <= t) by nia. assert (Htn : t <= 1 + n) by nia.
  destruct (root_up_ok (dims C) t Hd n 1 Htn (le_n 1)) as [R1 R2].
  assert (R3 : (root_up n (dims C) t 1 - 1) ^ dims C < t).
  { apply root_up_least; [exact Ht|]. cbn [Nat.sub]. rewrite Nat.pow_0_l; lia. }
  set (p := root_up n (dims C) t 1) in *. set (x := (p - 1) ^ dims C) in *. set (y := p ^ dims C) in *.
  split; [split; [exact R2|nia]|nia].
Qed.
Lemma pieces_least_c4b n : 4 < n -> pieces_least c4b n.
Proof. apply (pieces_exact c4b); cbn; auto. Qed.
Lemma pieces_c4b n : 4 < n -> pieces_ok c4b n.
Proof. intros H. apply pieces_least_c4b, H. Qed.
Example traits_c4b : traits_ok c4b.
Proof. constructor; cbn; try lia. intros. apply isort_perm. Qed.

Fixpoint chunk_sizes (fuel k n : nat) : list nat :=
  match fuel with O => [] | S f => match n with O => [] | S _ => Nat.min k n :: chunk_sizes f k (n - k) end end.
Definition seg_sizes (C : cfg) (p n : nat) : list nat :=
  if Nat.leb n (mx C) then [n] else chunk_sizes n (opt_size C (Nat.div (n + p - 1) p) n) n.
Fixpoint segs_sizes (C : cfg) (p : nat) (ds : list nat) (ns : list nat) : list nat :=
  match ds with
  | [] => ns
  | _ :: r => match ns with n :: _ => if Nat.leb n (mx C) then ns else segs_sizes C p r (flat_map (seg_sizes C p) ns) | [] => ns end
  end.

Definition ex_loaded (n : nat) : st nat := match bulk_load c4b (ex_list n) with Ok s => s | _ => init c4b end.
Example C35_ex : bulk_load c4b (ex_list 30) = Ok (ex_loaded 30) /\
  fills_below (root (ex_loaded 30)) = [4; 3; 3; 3; 3; 4; 3; 3; 3; 3; 2; 3; 3] /\ size (ex_loaded 30) = 30.
Proof. split; [vm_compute; reflexivity|]. split; vm_compute; reflexivity. Qed.

Example C35_bulk_returns_plane_ex : 1 <= dims c4b <= 2 /\ 3 <= mx c4b /\ (forall n, mx c4b < n -> pieces_least c4b n) /\ pieces 2 4 100 = 5.
Proof. split; [cbn; lia|]. split; [cbn; lia|]. split; [exact pieces_least_c4b|vm_compute; reflexivity]. Qed.

(** Three dimensions, and more pieces per dimension than a node may have children *)
Definition c4t : cfg := CFG 3 2 4 100 true 1 isort (pieces 3 4).
Example traits_c4t : traits_ok c4t.
Proof. constructor; cbn; try lia. intros. apply isort_perm. Qed.
Definition ex_list3 (n : nat) : list (box * nat) :=
  map (fun i => let z k := Z.of_nat (Nat.modulo (k * i) 17) in ([(z 1, z 1); (z 5, Z.add (z 5) 2); (z 7, Z.add (z 7) 1)], i)) (seq 0 n).
Definition ex_loaded3 (n : nat) : st nat := match bulk_load c4t (ex_list3 n) with Ok s => s | _ => init c4t end.
Example C35_bulk_capacity_ex : (forall n, mx c4t < n -> pieces_ok c4t n) /\ bulk_load c4t (ex_list3 110) = Ok (ex_loaded3 110) /\
  pieces 3 4 110 = 4 /\ segs_sizes c4t 4 [0] [110] = [27; 27; 27; 27; 2] /\
  size (ex_loaded3 110) = 110 /\ length (filter (Nat.eqb 4) (fills_below (root (ex_loaded3 110)))) = 5.
Proof.
  split; [intros n H; apply (pieces_exact c4t); cbn in *; auto; lia|]. do 4 (split; [vm_compute; reflexivity|]). vm_compute; reflexivity.
Qed.
Example C35_bulk_returns_partial_ex : traits_ok c4t /\ pieces 3 4 290 = 5 /\ mx c4t < 5 /\ (5 + mn c4t + 3) * 5 ^ (dims c4t - 1) <= 290.
Proof. split; [exact traits_c4t|]. split; [vm_compute; reflexivity|]. cbn; lia. Qed.

(** With min_node_size 1 and max_node_size 2 the loader never ends on ten entries: the pieces of
    the second dimension hold one entry each, so every level has as many directories as the
    one below *)
Definition c12 : cfg := CFG 2 1 2 100 true 1 isort (pieces 2 2).
Example traits_c12 : traits_ok c12.
Proof. constructor; cbn; try lia. intros. apply isort_perm. Qed.

Lemma chunk_sizes_ok {V} (fuel k : nat) : forall l : list (nd V), map (@length _) (chunk fuel k l) = chunk_sizes fuel k (length l).
Proof.
  induction fuel as [|f IH]; intros l; [reflexivity|]. destruct l as [|x l]; [reflexivity|].
  change (chunk (S f) k (x :: l)) with (firstn k (x :: l) :: chunk f k (skipn k (x :: l))).
  change (chunk_sizes (S f) k (length (x :: l))) with (Nat.min k (length (x :: l)) :: chunk_sizes f k (length (x :: l) - k)).
  cbn [map]. now rewrite firstn_length, IH, skipn_length.
Qed.
Lemma seg_sizes_ok {V} C (T : traits_ok C) p d (l : list (nd V)) : map (@length _) (split_seg C p d l) = seg_sizes C p (length l).
Proof.
  unfold split_seg, seg_sizes. destruct (Nat.leb (length l) (mx C)); [reflexivity|]. rewrite chunk_sizes_ok.
  now rewrite (Permutation_length (t_sort C T (nd V) (mid_lt d) l)).
Qed.
Lemma segs_sizes_ok {V} C (T : traits_ok C) p ds : forall ls : list (list (nd V)),
  map (@length _) (split_segs C p ds ls) = segs_sizes C p ds (map (@length _) ls).
Proof.
  induction ds as [|d ds IH]; intros [|l ls]; try reflexivity.
  cbn [split_segs segs_sizes map]. destruct (Nat.leb (length l) (mx C)); [reflexivity|]. rewrite IH. f_equal.
  change (length l :: map (@length _) ls) with (map (@length (nd V)) (l :: ls)).
  assert (G : forall m : list (list (nd V)), map (@length _) (flat_map (split_seg C p d) m) = flat_map (seg_sizes C p) (map (@length _) m)).
  { induction m as [|x m IHm]; [reflexivity|]. cbn [flat_map map]. now rewrite map_app, IHm, seg_sizes_ok. }
  exact (G (l :: ls)).
Qed.
Lemma make_dirs_length {V} C lf : forall (segs : list (list (nd V))) x, length (fst (make_dirs C x lf segs)) = length segs.
Proof.
  induction segs as [|g segs IH]; intros x; [reflexivity|]. cbn [make_dirs].
  specialize (IH (S (x + length (readdr x g)))). destruct (make_dirs C (S (x + length (readdr x g))) lf segs). cbn [fst length] in *. lia.
Qed.
Lemma pack_level_ten {V} x d (store : list (nd V)) : length store = 10 -> length (fst (pack_level c12 x d store)) = 10.
Proof.
  intros L. unfold pack_level. rewrite make_dirs_length. rewrite <- (map_length (@length _)), (segs_sizes_ok c12 traits_c12). cbn [map].
  rewrite L. vm_compute. reflexivity.
Qed.

(** No number of levels is enough *)
Theorem C35_bulk_returns_refuted : forall (V : Type) (l : list (nd V)) x d fuel, length l = 10 -> bulk_levels c12 fuel x d l = Undef.
Proof.
  intros V l x d fuel. revert x d l. induction fuel as [|f IH]; intros x d l L; cbn [bulk_levels]; rewrite L; cbn [mx c12 Nat.ltb Nat.leb]; [reflexivity|].
  pose proof (pack_level_ten x d l L) as P. destruct (pack_level c12 x d l) as [l' x']. cbn [fst] in P. now apply IH.
Qed.

Example C35_bulk_returns_refuted_ex : traits_ok c12 /\ bulk_load c12 (ex_list 10) = Undef /\
  pieces 2 2 10 = 3 /\ segs_sizes c12 3 [0; 1] [10] = repeat 1 10.
Proof. split; [exact traits_c12|]. repeat split; vm_compute; reflexivity. Qed.

(** A loaded tree is marked like a copy, so its root must not split either *)
Theorem C35_then_erase_refuted : exists (s s1 : st nat) a d b v,
  bulk_load c4b (ex_list 4) = Ok s /\ insert c4b (ex_box 4) 4 s = Ok s1 /\ In (a, d, b, v) (search_match b s1) /\
  exists s2, erase c4b a d s1 = Ok s2 /\ size s2 = size s1.
Proof.
  pose (s1 := ex_more [(ex_box 4, 4)] (ex_loaded 4)).
  exists (ex_loaded 4), s1, (fst (ex_at s1 0)), (snd (ex_at s1 0)), (ex_box 0), 0.
  split; [vm_compute; reflexivity|]. split; [vm_compute; reflexivity|].
  split; [vm_compute; now left|]. exists (ex_erase 0 s1). split; vm_compute; reflexivity.
Qed.

(** The removals that dissolve two levels and return normally lose no entry: each directory
    holds three to six children here, so the dissolved directory leaves two orphaned
    directories, and the 69 other entries are all found after their reinsertion *)
Definition c6 : cfg := CFG 2 3 6 100 true 1 isort (fun _ => 2).
Definition ex_tree6 (n : nat) : st nat := match inserts c6 (ex_list n) (init c6) with Ok s => s | _ => init c6 end.
Definition ex_all6 (s : st nat) := map snd (search_overlap [(-100, 100); (-100, 100)]%Z s).

Example C70_cascade_case : exists s', erase c6 (fst (ex_at (ex_tree6 70) 0)) (snd (ex_at (ex_tree6 70) 0)) (ex_tree6 70) = Ok s' /\
  size (ex_tree6 70) = 70 /\ size s' = 69 /\ length (ex_all6 s') = 69 /\
  forallb (fun v => existsb (Nat.eqb v) (ex_all6 s')) (seq 1 69) = true /\ existsb (Nat.eqb 0) (ex_all6 s') = false.
Proof.
  exists (match erase c6 (fst (ex_at (ex_tree6 70) 0)) (snd (ex_at (ex_tree6 70) 0)) (ex_tree6 70) with Ok s => s | _ => init c6 end).
  split; [vm_compute; reflexivity|]. split; [vm_compute; reflexivity|]. split; [vm_compute; reflexivity|].
  split; [vm_compute; reflexivity|]. split; vm_compute; reflexivity.
Qed.

(** One query for all the theorems of this file. *)
Definition RtProps2_theorems :=
  (@C70_erase_kept, @C70_kept_observed, @C70_kept_searches, @C70_kept_insert,
   @C70_erase_partial, @C70_managed_observed, @C70_managed_searches, @C70_managed_insert,
   @C70_erase_refuted, @C70_depth_refuted, @C36_same, @C36_usable_partial,
   @C36_erase_refuted, @C36_search_refuted, @C35_bulk_contents, @C35_bulk_searches,
   @C35_bulk_capacity, @C35_bulk_returns_partial, @C35_bulk_returns_plane, @C35_bulk_returns_refuted, @C35_then_erase_refuted).
Print Assumptions RtProps2_theorems.
