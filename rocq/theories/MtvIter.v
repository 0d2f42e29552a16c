(** Model of the iterators of multi_type_vector and of its integrity check.

    Source: /repo/include/mdds/multi_type_vector/iterator_node.hpp, soa/iterator.hpp,
    aos/iterator.hpp, soa/main.hpp, soa/main_def.inl, aos/main.hpp, aos/main_def.inl.

    Simplifications that hold for the whole file:
    - The container an iterator belongs to is passed to every call on the iterator;
      iterators of two containers are not compared.
    - An iterator of std::vector is an index; a reverse iterator is an index into the
      reversed list.  Leaving the range 0..size() is undefined.
    - The three vectors of the SoA layout have equal lengths, so that the group of three
      iterators (soa/iterator.hpp:39-68) is one index; the AoS layout has one anyway.
    - iterator and const_iterator (soa/iterator.hpp:183-355, aos/iterator.hpp:122-266) are
      the same class here. *)
From Coq Require Import List ZArith Lia Bool.
From Verif Require Import Base MtvModel.
Import ListNotations.

Section Iter.
Context {V : Type}.
Notation eblk := (@eblk V).
Notation blk := (@blk V).
Notation st := (@st V).

(** iterator_value_node, iterator_node.hpp:18-66: type ([None] for the empty type),
    position, size, data and the block index of the private data. *)
Record node := NODE {
  ntype : option nat; npos : nat; nsize : nat; ndata : option eblk; nindex : nat }.

(** iterator_value_node(parent, block_index), iterator_node.hpp:28-30. *)
Definition blank (k : nat) : node := NODE None 0 0 None k.

(** Comparison of data pointers, iterator_node.hpp:62 (C++ built-in). *)
Definition data_same (a b : option eblk) : bool :=
  match a, b with
  | None, None => true
  | Some x, Some y => (fst (eid x) =? fst (eid y)) && (snd (eid x) =? snd (eid y))
  | _, _ => false
  end.

(** Comparison of types, iterator_node.hpp:62 (C++ built-in). *)
Definition type_same (a b : option nat) : bool :=
  match a, b with
  | None, None => true
  | Some x, Some y => x =? y
  | _, _ => false
  end.

(** iterator_value_node::operator==, iterator_node.hpp:60-65 (the parent is the same). *)
Definition node_eqb (a b : node) : bool :=
  type_same (ntype a) (ntype b) && (npos a =? npos b) && (nsize a =? nsize b) &&
  data_same (ndata a) (ndata b) && (nindex a =? nindex b).

(** iterator_updater: m_cur_node, m_pos, m_end, soa/iterator.hpp:70-72,
    aos/iterator.hpp:78-80. *)
Record iter := ITR { cur : node; ipos : nat; iend : nat }.

(** The blocks in the order of the iterator: [fwd] for iterator and const_iterator, its
    negation for the reverse ones, soa/main.hpp:170-225, aos/main.hpp:142-165. *)
Definition ordered (fwd : bool) (s : st) : list blk := if fwd then bl s else rev (bl s).

(** update_node, soa/iterator.hpp:99-115, aos/iterator.hpp:43-60. *)
Definition update_node (fwd : bool) (s : st) (it : iter) : res iter :=
  let* b := deref (nth_error (ordered fwd s) (ipos it)) in
  Ok (ITR (NODE (dcat (bd b)) (bp b) (bs b) (bd b) (nindex (cur it))) (ipos it) (iend it)).

(** The constructor with positions, soa/iterator.hpp:77-84, aos/iterator.hpp:32-38. *)
Definition make (fwd : bool) (s : st) (i k : nat) : res iter :=
  let it := ITR (blank k) i (length (ordered fwd s)) in
  if ipos it =? iend it then Ok it else update_node fwd s it.

(** begin and cbegin, rbegin and crbegin, soa/main_def.inl:4064-4069, 4116-4123,
    4137-4142, 4184-4192, aos/main_def.inl:136-139, 160-163, 172-175, 184-187, 196-199. *)
Definition it_begin (fwd : bool) (s : st) : res iter := make fwd s 0 0.
(** end and cend, rend and crend, soa/main_def.inl:4072-4078, 4126-4134, 4145-4150,
    4195-4203, aos/main_def.inl:142-145, 166-169, 178-181, 190-193, 202-205. *)
Definition it_end (fwd : bool) (s : st) : res iter :=
  make fwd s (length (ordered fwd s)) (if fwd then length (bl s) else 0).
(** get_iterator and get_const_iterator, soa/main.hpp:1510-1538, aos/main.hpp:1353-1365:
    what the calls that change or look up an element return. *)
Definition it_at (s : st) (i : nat) : res iter :=
  if i <=? length (bl s) then make true s i i else Undef.

(** operator++ with private_data_forward_update and private_data_no_update,
    iterator_node.hpp:68-94, soa/iterator.hpp:117-125, 233-238, aos/iterator.hpp:62-70,
    164-169. *)
Definition inc (fwd : bool) (s : st) (it : iter) : res iter :=
  let n := cur it in
  let n := NODE (ntype n) (npos n) (nsize n) (ndata n) (if fwd then S (nindex n) else nindex n) in
  if ipos it <? length (ordered fwd s) then
    let it := ITR n (S (ipos it)) (iend it) in
    if ipos it =? iend it then Ok it else update_node fwd s it
  else Undef.

(** operator--, iterator_node.hpp:68-94, soa/iterator.hpp:127-132, 240-245,
    aos/iterator.hpp:72-77, 171-176. *)
Definition dec (fwd : bool) (s : st) (it : iter) : res iter :=
  match ipos it with
  | O => Undef
  | S i =>
      let* it := update_node fwd s (ITR (cur it) i (iend it)) in
      let n := cur it in
      Ok (ITR (NODE (ntype n) (npos n) (nsize n) (ndata n)
                 (if fwd then pred (nindex n) else nindex n)) (ipos it) (iend it))
  end.

(** operator==, soa/iterator.hpp:145-155, aos/iterator.hpp:83-93. *)
Definition iter_eqb (a b : iter) : bool :=
  if negb (ipos a =? iend a) && negb (ipos b =? iend b) && negb (node_eqb (cur a) (cur b))
  then false
  else (ipos a =? ipos b) && (iend a =? iend b).

(** const_iterator(const iterator&), soa/iterator.hpp:303-308, aos/iterator.hpp:230-234. *)
Definition to_const (fwd : bool) (s : st) (it : iter) : res iter :=
  make fwd s (ipos it) (nindex (cur it)).

(** [for (it = first; it != last; ++it) push_back( *it )] by a caller,
    soa/iterator.hpp:145-155, 233-238 (helper, no code of its own). *)
Fixpoint walk (fuel : nat) (fwd : bool) (s : st) (it last : iter) : res (list node) :=
  if iter_eqb it last then Ok []
  else match fuel with
       | O => Undef
       | S f =>
           let* it' := inc fwd s it in
           let* l := walk f fwd s it' last in
           Ok (cur it :: l)
       end.

(** [while (it != first) push_back( *--it )] by a caller, soa/iterator.hpp:145-155, 240-245
    (helper, no code of its own). *)
Fixpoint walk_back (fuel : nat) (fwd : bool) (s : st) (it first : iter) : res (list node) :=
  if iter_eqb it first then Ok []
  else match fuel with
       | O => Undef
       | S f =>
           let* it' := dec fwd s it in
           let* l := walk_back f fwd s it' first in
           Ok (cur it' :: l)
       end.

(** ** check_block_integrity (debug builds) *)

(** The loop over the blocks after the first one, soa/main_def.inl:5613-5657,
    aos/main_def.inl:4880-4918: position expected and the sum of the sizes.  The test for
    two neighbours of equal type builds an exception object without throwing it
    (soa/main_def.inl:5643-5649, aos/main_def.inl:4903-4909), so it has no effect. *)
Fixpoint check_rest (expected total : nat) (l : list blk) : res nat :=
  match l with
  | [] => Ok total
  | b :: t =>
      if bs b =? 0 then Throw E_integrity
      else if negb (bp b =? expected) then Throw E_integrity
      else
        match bd b with
        | Some e => if negb (length (ev e) =? bs b) then Throw E_integrity
                    else check_rest (expected + bs b) (total + bs b) t
        | None => check_rest (expected + bs b) (total + bs b) t
        end
  end.

(** check_block_integrity, soa/main_def.inl:5590-5667, without the comparison of the
    lengths of the three arrays.  The position of the first block and the total size are
    looked at without a throw (soa/main_def.inl:5601-5607, 5659-5666). *)
Definition check_soa (s : st) : res unit :=
  match bl s with
  | [] => Ok tt
  | b :: t =>
      if (length (bl s) =? 1) && (bs b =? 0) then Throw E_integrity
      else let* _ := check_rest (bs b) (bs b) t in Ok tt
  end.

(** check_block_integrity, aos/main_def.inl:4848-4925: it also refuses a first block of
    size zero. *)
Definition check_aos (s : st) : res unit :=
  match bl s with
  | [] => Ok tt
  | b :: t =>
      if bs b =? 0 then Throw E_integrity
      else let* _ := check_rest (bs b) (bs b) t in Ok tt
  end.

End Iter.
