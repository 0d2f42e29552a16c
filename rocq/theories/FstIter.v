(** Model of the iterators of mdds::flat_segment_tree.

    A node pointer is the index of the node in the list of leaf nodes, as in FstModel.v;
    [None] is the null pointer.  Following a null pointer, or a pointer to a node that
    is not in the tree, is undefined ([Undef]).  Each function takes the tree that the
    iterator points into. *)
From Coq Require Import List ZArith Lia Bool.
From Verif Require Import Base FstModel.
Import ListNotations.
Open Scope Z_scope.

Section FstIter.
Context {V : Type}.
(** value_type{}; flat_segment_tree_itr.hpp:179-180 *)
Variable vnull : V.
Notation fst_t := (@fst_t V).

(** p->next, p->prev of a node of the tree; node.hpp:99-122 *)
Definition next_of (t : fst_t) (p : nat) : res (option nat) :=
  if (p <? length (leaves t))%nat then
    Ok (if (S p <? length (leaves t))%nat then Some (S p) else None)
  else Undef.
(** p->prev; node.hpp:99-122 *)
Definition prev_of (t : fst_t) (p : nat) : res (option nat) :=
  if (p <? length (leaves t))%nat then
    Ok (match p with O => None | S q => Some q end)
  else Undef.

(** default_value(); flat_segment_tree.hpp:508-511 *)
Definition default_value (t : fst_t) : V := init_val t.

(** Members of const_iterator_base; flat_segment_tree_itr.hpp:158-161.  [l_db] is the
    identity of the tree. *)
Record lit : Type := LIt { l_db : option nat; l_pos : option nat; l_end : bool }.

(** Default constructors; flat_segment_tree.hpp:94-95, 121-122 *)
Definition lit0 : lit := LIt None None false.

(** begin(), end(), rbegin(), rend(); flat_segment_tree.hpp:149-186, init_pos
    flat_segment_tree_itr.hpp:18-21, 50-53.  [fwd] selects the kind of iterator. *)
Definition it_first (fwd : bool) (db : nat) (t : fst_t) : lit :=
  LIt (Some db) (Some (if fwd then 0%nat else right_idx t)) false.
(** end(), rend(); flat_segment_tree.hpp:159-186 *)
Definition it_last (fwd : bool) (db : nat) (t : fst_t) : lit :=
  LIt (Some db) (Some (if fwd then right_idx t else 0%nat)) true.
(** The iterator that search and the insertions return, made from the position and the
    end flag; flat_segment_tree_itr.hpp:95-96, flat_segment_tree.hpp:104-108 *)
Definition it_at (db : nat) (i : iter) : lit := LIt (Some db) (Some (fst i)) (snd i).

(** operator++; flat_segment_tree_itr.hpp:110-115, inc 23-29, 55-61 *)
Definition it_inc (fwd : bool) (t : fst_t) (i : lit) : res lit :=
  match l_db i, l_pos i with
  | Some _, Some p =>
      if (p =? (if fwd then right_idx t else 0))%nat then Ok (LIt (l_db i) (l_pos i) true)
      else
        let* q := (if fwd then next_of t p else prev_of t p) in
        Ok (LIt (l_db i) q (l_end i))
  | _, _ => Undef
  end.
(** operator--; flat_segment_tree_itr.hpp:117-122, dec 33-39, 63-69 *)
Definition it_dec (fwd : bool) (t : fst_t) (i : lit) : res lit :=
  match l_pos i with
  | Some p =>
      if l_end i then Ok (LIt (l_db i) (l_pos i) false)
      else
        let* q := (if fwd then prev_of t p else next_of t p) in
        Ok (LIt (l_db i) q (l_end i))
  | None => Undef
  end.
(** operator*, operator->; flat_segment_tree_itr.hpp:132-140 *)
Definition it_show (t : fst_t) (i : lit) : res (Z * V) :=
  match l_pos i with
  | Some p => deref (nth_error (leaves t) p)
  | None => Undef
  end.
(** Equality of two optional indexes; used for == of pointers,
    flat_segment_tree_itr.hpp:124-130 *)
Definition onat_eqb (a b : option nat) : bool :=
  match a, b with
  | Some x, Some y => (x =? y)%nat
  | None, None => true
  | _, _ => false
  end.
(** operator==; flat_segment_tree_itr.hpp:124-130 *)
Definition it_eqb (a b : lit) : bool :=
  onat_eqb (l_db a) (l_db b) && onat_eqb (l_pos a) (l_pos b) && Bool.eqb (l_end a) (l_end b).

(** Members of const_segment_iterator; flat_segment_tree_itr.hpp:297-300 *)
Record sit : Type := SIt { s_start : option nat; s_end : option nat; s_node : Z * Z * V }.

(** Default constructor; flat_segment_tree_itr.hpp:179-180, 194-195 *)
Definition sit0 : sit := SIt None None (0, 0, vnull).

(** update_node; flat_segment_tree_itr.hpp:285-294 *)
Definition update_node (t : fst_t) (s : sit) : res sit :=
  match s_end s with
  | None => Ok s
  | Some e =>
      match s_start s with
      | None => Undef
      | Some b =>
          let* (ks, v) := deref (nth_error (leaves t) b) in
          let* (ke, _) := deref (nth_error (leaves t) e) in
          Ok (SIt (s_start s) (s_end s) (ks, ke, v))
      end
  end.
(** Constructor from two nodes; flat_segment_tree_itr.hpp:169-173 *)
Definition seg_make (t : fst_t) (b e : option nat) : res sit := update_node t (SIt b e (0, 0, vnull)).
(** begin_segment(), segment_range().begin(); flat_segment_tree_def.inl:25-30, 39-43 *)
Definition seg_begin (t : fst_t) : res sit :=
  let* e := next_of t 0 in seg_make t (Some 0%nat) e.
(** end_segment(), segment_range().end(); flat_segment_tree_def.inl:32-37, 45-49 *)
Definition seg_end (t : fst_t) : res sit := seg_make t (Some (right_idx t)) None.

(** operator==; flat_segment_tree_itr.hpp:211-214.  The shown segment is not compared. *)
Definition seg_eqb (a b : sit) : bool := onat_eqb (s_start a) (s_start b) && onat_eqb (s_end a) (s_end b).
(** operator*, operator->; flat_segment_tree_itr.hpp:234-242 *)
Definition seg_show (s : sit) : Z * Z * V := s_node s.

(** Common part of ++ and --: go to the node [b], which must not be null;
    flat_segment_tree_itr.hpp:247-250 *)
Definition seg_goto (t : fst_t) (s : sit) (b : option nat) : res sit :=
  match b with
  | None => Undef
  | Some b => let* e := next_of t b in update_node t (SIt (Some b) e (s_node s))
  end.
(** operator++; flat_segment_tree_itr.hpp:244-251 *)
Definition seg_inc (t : fst_t) (s : sit) : res sit :=
  match s_start s with
  | None => Undef
  | Some p => let* b := next_of t p in seg_goto t s b
  end.
(** operator--; flat_segment_tree_itr.hpp:263-270 *)
Definition seg_dec (t : fst_t) (s : sit) : res sit :=
  match s_start s with
  | None => Undef
  | Some p => let* b := prev_of t p in seg_goto t s b
  end.
(** Copy and move constructor; flat_segment_tree_itr.hpp:196-206 *)
Definition seg_copy (t : fst_t) (s : sit) : res sit :=
  match s_start s with
  | None => Ok (SIt None (s_end s) (0, 0, vnull))
  | Some _ => seg_make t (s_start s) (s_end s)
  end.
(** Copy and move assignment to [x]; flat_segment_tree_itr.hpp:216-232 *)
Definition seg_assign (t : fst_t) (x s : sit) : res sit :=
  match s_start s with
  | None => Ok (SIt None (s_end s) (s_node x))
  | Some _ => update_node t (SIt (s_start s) (s_end s) (s_node x))
  end.
(** operator++(int): the returned copy and the iterator after the call;
    flat_segment_tree_itr.hpp:253-261 *)
Definition seg_post_inc (t : fst_t) (s : sit) : res (sit * sit) :=
  let* r := seg_copy t s in
  let* s' := seg_inc t s in
  Ok (r, s').
(** operator--(int); flat_segment_tree_itr.hpp:272-280 *)
Definition seg_post_dec (t : fst_t) (s : sit) : res (sit * sit) :=
  let* r := seg_copy t s in
  let* s' := seg_dec t s in
  Ok (r, s').

(** const_iterator::to_segment(); flat_segment_tree_def.inl:7-17.  Without a tree the
    call of end_segment() goes through a null pointer. *)
Definition to_segment (t : fst_t) (i : lit) : res sit :=
  match l_db i with
  | None => Undef
  | Some _ =>
      match l_pos i with
      | None => seg_end t
      | Some p =>
          if l_end i then seg_end t
          else
            let* e := next_of t p in
            match e with
            | None => seg_end t
            | Some _ => seg_make t (Some p) e
            end
      end
  end.

End FstIter.
