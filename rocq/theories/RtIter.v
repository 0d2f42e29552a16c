(** Model of the points, extents and search results of mdds::rtree
    (include/mdds/rtree.hpp:142-206, 383-458, include/mdds/rtree_def.inl:368-463, 936-1060). *)

From Coq Require Import List ZArith Lia Bool.
From Verif Require Import Base RtModel.
Import ListNotations.
Open Scope Z_scope.

(** ** Points and extents *)

(** rtree.hpp:142-144 point_type::d while it is being filled: [None] is a coordinate that was
    never written *)
Definition raw : Type := list (option Z).
(** rtree_def.inl:372-380 point_type() *)
Definition point0 (dims : nat) : raw := repeat (Some 0) dims.
(** rtree_def.inl:383-397 point_type(initializer_list); [None] where it throws
    std::range_error.  The comment there promises default values, but no loop writes them. *)
Fixpoint point_from (dst : raw) (vs : list Z) : option raw :=
  match vs with
  | [] => Some dst
  | v :: vs =>
      match dst with
      | [] => None
      | _ :: dst => option_map (cons (Some v)) (point_from dst vs)
      end
  end.
(** rtree_def.inl:383-397 the array starts uninitialised *)
Definition point_of (dims : nat) (vs : list Z) : option raw := point_from (repeat None dims) vs.
(** Reading all the coordinates, e.g. rtree_def.inl:417-430; undefined where one was not written *)
Fixpoint read_point (p : raw) : res point :=
  match p with
  | [] => Ok []
  | None :: _ => Undef
  | Some x :: p => let* q := read_point p in Ok (x :: q)
  end.
(** rtree_def.inl:433-439 extent_type() and extent_type(start, end) *)
Definition extent_of (s e : point) : box := combine s e.
(** rtree_def.inl:417-430 point_type::operator== *)
Fixpoint point_eqb (a b : point) : bool :=
  match a, b with
  | x :: a, y :: b => if negb (x =? y) then false else point_eqb a b
  | _, _ => true
  end.
(** rtree_def.inl:454-457 is_point *)
Definition is_point (b : box) : bool := point_eqb (map fst b) (map snd b).

(** ** Search results *)

Section R.
Context {V : Type}.
Notation st := (st V).

(** rtree.hpp:383-402 search_results_base: entries with a pointer to the node and a depth *)
Definition results : Type := list (addr * nat).
(** rtree_def.inl:937-941 add_node_store, in the order search_descend (2527-2555) calls it *)
Definition results_of (r : list (addr * nat * box * V)) : results :=
  map (fun x => match x with (a, d, _, _) => (a, d) end) r.
(** rtree.hpp:433-463 iterator_base: position in the array of entries, and begin() and end(),
    rtree_def.inl:1017-1052 *)
Definition r_begin (r : results) : nat := 0%nat.
(** rtree_def.inl:1023-1052 end() *)
Definition r_end (r : results) : nat := length r.
(** rtree_def.inl:957-961 operator== *)
Definition r_eqb (i j : nat) : bool := Nat.eqb i j.
(** rtree_def.inl:966-970 operator++; leaving the array is undefined *)
Definition r_inc (r : results) (i : nat) : res nat := if Nat.ltb i (length r) then Ok (S i) else Undef.
(** rtree_def.inl:985-989 operator-- *)
Definition r_dec (r : results) (i : nat) : res nat := match i with O => Undef | S j => Ok j end.
(** rtree_def.inl:975-980, 994-999 the postfix forms: returned iterator and the new one *)
Definition r_post_inc (r : results) (i : nat) : res (nat * nat) := let* j := r_inc r i in Ok (i, j).
(** rtree_def.inl:994-999 operator--(int) *)
Definition r_post_dec (r : results) (i : nat) : res (nat * nat) := let* j := r_dec r i in Ok (i, j).
(** rtree_def.inl:1003-1014 depth() and extent(), rtree.hpp:481-489, 508-516 operator* : read through the
    pointer *)
Definition r_show (s : st) (r : results) (i : nat) : res (nat * box * V) :=
  let* e := deref (nth_error r i) in
  match get (fst e) (root s) with
  | Some (NV _ _ b v) => Ok (snd e, b, v)
  | _ => Undef
  end.
(** Assignment to [*it] of a mutable iterator, rtree.hpp:508-516 *)
Definition r_write (s : st) (r : results) (i : nat) (w : V) : res st :=
  let* e := deref (nth_error r i) in
  match get (fst e) (root s) with
  | Some (NV a p b _) => Ok (ST (upd a (NV a p b w) (root s)) (nxt s))
  | _ => Undef
  end.
(** A caller collecting what the iterators show from [i] to the end (helper, no code of its
    own), rtree_def.inl:957-1052 *)
Fixpoint r_collect (fuel : nat) (s : st) (r : results) (i : nat) : res (list (nat * box * V)) :=
  if r_eqb i (r_end r) then Ok []
  else match fuel with
       | O => Undef
       | S f =>
           let* x := r_show s r i in
           let* (_, j) := r_post_inc r i in
           let* l := r_collect f s r j in
           Ok (x :: l)
       end.
(** The same going back to the begin (helper, no code of its own), rtree_def.inl:957-1052 *)
Fixpoint r_collect_back (fuel : nat) (s : st) (r : results) (i : nat) : res (list (nat * box * V)) :=
  if r_eqb i (r_begin r) then Ok []
  else match fuel with
       | O => Undef
       | S f =>
           let* (_, j) := r_post_dec r i in
           let* x := r_show s r j in
           let* l := r_collect_back f s r j in
           Ok (x :: l)
       end.
End R.
