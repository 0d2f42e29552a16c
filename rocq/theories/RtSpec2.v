(** What a user of rtree relies on once values are removed, trees are copied, moved, swapped
    or loaded in bulk. *)

From Coq Require Import List ZArith Lia Bool Permutation.
From Verif Require Import Base RtModel RtSpec.
Import ListNotations.
Open Scope nat_scope.

Section S.
Context {V : Type}.

(** The numbers of children of the directories above the object at an address, the root first *)
Fixpoint sizes_above (a : addr) (n : nd V) : option (list nat) :=
  if Nat.eqb (na n) a then Some []
  else match n with
       | NV _ _ _ _ => None
       | ND _ _ _ _ _ _ ks =>
           option_map (cons (length ks))
             (fold_right (fun k r => match sizes_above a k with Some p => Some p | None => r end) None ks)
       end.

(** The root of the tree is marked as holding valid parent pointers below it: a tree that was
    copied, moved, swapped or loaded in bulk, or in which an erasure removed a leaf of the
    root (rtree.hpp:236, rtree_def.inl:703-726) *)
Definition pinned (s : st V) : bool :=
  match root s with NV _ _ _ _ => false | ND _ _ _ _ _ ok _ => ok end.

(** The leaf of the value keeps at least the minimum, or is the root *)
Definition leaf_stays (C : cfg) (a : addr) (s : st V) : Prop :=
  exists q k, sizes_above a (root s) = Some (q ++ [k]) /\ (q = [] \/ mn C < k).

(** The leaf is dissolved, but the directory above it is the root or keeps at least the minimum *)
Definition leaf_goes (C : cfg) (a : addr) (s : st V) : Prop :=
  exists q g k, sizes_above a (root s) = Some (q ++ [g; k]) /\ k <= mn C /\
    ((q = [] /\ 2 <= g /\ g + mn C <= mx C + 2) \/
     (q <> [] /\ mn C < g /\ (pinned s = true -> ncnt (root s) + mn C <= S (mx C)))).

(** An insertion cannot make a root split that is marked as above *)
Definition has_room (C : cfg) (s : st V) : Prop := pinned s = true -> ncnt (root s) + reins C <= mx C.

(** The tree after an assignment to the value of the object at an address *)
Definition assigned (a : addr) (p : option addr) (b : box) (w : V) (s : st V) : st V := ST (upd a (NV a p b w) (root s)) (nxt s).

(** Insertions, clears, removals that leave the leaf in place, and assignments to values *)
Inductive kept (C : cfg) : st V -> list (box * V) -> Prop :=
| kept_new : kept C (init C) []
| kept_insert s l b v s' : kept C s l -> length b = dims C -> insert C b v s = Ok s' -> kept C s' ((b, v) :: l)
| kept_erase s l l' a d p b v s' : kept C s l -> get a (root s) = Some (NV a p b v) -> leaf_stays C a s ->
    Permutation l ((b, v) :: l') -> erase C a d s = Ok s' -> kept C s' l'
| kept_write s l l' a p b v w : kept C s l -> get a (root s) = Some (NV a p b v) -> Permutation l ((b, v) :: l') ->
    kept C (assigned a p b w s) ((b, w) :: l')
| kept_clear s l : kept C s l -> kept C (clear C s) [].

(** Number of pieces per dimension that is large enough for the number of nodes *)
Definition pieces_ok (C : cfg) (n : nat) : Prop := 1 <= spl C n /\ n <= spl C n ^ dims C * mx C.
(** ... and the smallest such number *)
Definition pieces_least (C : cfg) (n : nat) : Prop := pieces_ok C n /\ (spl C n - 1) ^ dims C * mx C < n.

(** All the operations, each one where it is safe; [ld] tells whether trees loaded in bulk
    are among them *)
Inductive managed (C : cfg) (ld : bool) : st V -> list (box * V) -> Prop :=
| managed_new : managed C ld (init C) []
| managed_load l s : ld = true -> (forall n, mx C < n -> pieces_ok C n) ->
    Forall (fun e => length (fst e) = dims C) l -> bulk_load C l = Ok s -> managed C ld s l
| managed_insert s l b v s' : managed C ld s l -> length b = dims C -> has_room C s ->
    insert C b v s = Ok s' -> managed C ld s' ((b, v) :: l)
| managed_erase s l l' a d p b v s' : managed C ld s l -> get a (root s) = Some (NV a p b v) ->
    leaf_stays C a s \/ leaf_goes C a s ->
    Permutation l ((b, v) :: l') -> erase C a d s = Ok s' -> managed C ld s' l'
| managed_write s l l' a p b v w : managed C ld s l -> get a (root s) = Some (NV a p b v) -> Permutation l ((b, v) :: l') ->
    managed C ld (assigned a p b w s) ((b, w) :: l')
| managed_clear s l : managed C ld s l -> managed C ld (clear C s) []
| managed_copy s l : managed C ld s l -> managed C ld (copy s) l
| managed_rehome s l : managed C ld s l -> managed C ld (rehome s) l.

(** What the iterators of a search result show: depth, box and value *)
Definition shown (r : list (nat * nat * box * V)) : list (nat * box * V) :=
  map (fun x => match x with (_, d, b, v) => (d, b, v) end) r.

(** What one of the four kinds of search returns *)
Inductive asked (s : st V) : list (addr * nat * box * V) -> Prop :=
| asked_overlap q : asked s (search_overlap q s)
| asked_match q : asked s (search_match q s)
| asked_pt_overlap q : asked s (search_pt_overlap q s)
| asked_pt_match q : asked s (search_pt_match q s).

(** The addresses of the objects of a search result *)
Definition objects (r : list (addr * nat * box * V)) : list addr := map (fun x => match x with (a, _, _, _) => a end) r.

(** The same result with another value for the object at an address *)
Definition revalued (a : addr) (w : V) (r : list (addr * nat * box * V)) : list (addr * nat * box * V) :=
  map (fun x => match x with (a', d, b, v) => (a', d, b, if Nat.eqb a' a then w else v) end) r.

(** No query tells two trees apart, not even by the order of its results *)
Definition looks_same (s s' : st V) : Prop :=
  (forall q, shown (search_overlap q s) = shown (search_overlap q s')) /\
  (forall q, shown (search_match q s) = shown (search_match q s')) /\
  (forall q, shown (search_pt_overlap q s) = shown (search_pt_overlap q s')) /\
  (forall q, shown (search_pt_match q s) = shown (search_pt_match q s')) /\
  size s = size s' /\ empty s = empty s' /\ extent s = extent s' /\ walk s = walk s'.

End S.
