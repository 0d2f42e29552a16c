(** Executable model of writing through the iterators of mdds::trie_map, and of the conversion to
    const_iterator, /repo/include/mdds/trie_map_itr.hpp. *)
From Coq Require Import List ZArith Lia Bool Arith.
From Verif Require Import Base TrieModel.
Import ListNotations.
Open Scope Z_scope.

Section WRITE.
Context {V : Type}.
Local Notation tnode := (tnode V).
Local Notation iter := (iter V).
Local Notation stack := (list (TrieModel.tnode V * nat)).

(** What the pointers of a stack see once the node below its top was changed to [n]; the items of
    m_node_stack point into the tree, trie_map_itr.hpp:91 and trie_map.hpp:210-230 *)
Fixpoint restack (n : tnode) (i : nat) (st : stack) : stack :=
  match st with
  | [] => [(n, i)]
  | (p, j) :: st' =>
      match nth_error (nch p) j with
      | Some (c, _) => (n, i) :: restack (TN (nval p) (set_nth j (c, n) (nch p))) j st'
      | None => (n, i) :: st
      end
  end.

(** [it->second = v] for an iterator on an entry: operator* and operator-> hand out a reference to
    the value of the node, trie_map_itr.hpp:154-162.  The results are the tree that the root of the
    stack points to and the iterator afterwards.  Writing through an end or empty iterator is
    undefined here. *)
Definition iter_write (x : iter) (v : V) : res (tnode * iter) :=
  match ity x, stk x, cval x with
  | T_normal, (n, i) :: rest, Some _ =>
      let n' := TN (Some v) (nch n) in
      Ok (rebuild n' rest, IT (restack n' i rest) (buf x) (ckey x) (Some v) T_normal)
  | _, _, _ => Undef
  end.

(** [for (; it != end(); ++it) it->second = f(it->first, it->second)], how a caller uses the
    iterators of a trie (not repo code); over trie_map_itr.hpp:143-217 and trie_map_def.inl:719-733.  Running out of fuel is undefined. *)
Fixpoint update (fuel : nat) (f : list Z -> V -> V) (t : tnode) (it : iter) : res tnode :=
  match fuel with
  | O => Undef
  | S fu =>
      let* e := iter_eqb it (tend t) in
      if e then Ok t
      else
        let* a := iter_deref it in
        let* w := iter_write it (f (fst a) (snd a)) in
        let* it' := iter_inc (snd w) in
        update fu f (fst w) it'
  end.
(** the loop from begin() of the trie; trie_map_def.inl:665-733 *)
Definition update_all (fuel : nat) (f : list Z -> V -> V) (t : tnode) : res tnode :=
  let* it := tbegin t in update fuel f t it.
(** const_iterator(const iterator&); trie_map_itr.hpp:363-372 *)
Definition const_of (x : iter) : iter :=
  IT (map (fun e => (fst e, snd e)) (stk x)) (buf x) (ckey x) (cval x) (ity x).
(** operator== of an iterator and a const_iterator; trie_map_itr.hpp:375-379 *)
Definition iter_const_eqb (x y : iter) : res bool := iter_eqb (const_of x) y.
(** operator== of a const_iterator and an iterator; trie_map_itr.hpp:381-385 *)
Definition const_iter_eqb (x y : iter) : res bool := iter_eqb x (const_of y).

(** operator++(int): the iterator afterwards and the one returned; trie_map_itr.hpp:219-224 *)
Definition iter_post_inc (x : iter) : res (iter * iter) :=
  let tmp := x in let* y := iter_inc x in Ok (y, tmp).
(** operator--(int); trie_map_itr.hpp:298-303 *)
Definition iter_post_dec (x : iter) : res (iter * iter) :=
  let tmp := x in let* y := iter_dec x in Ok (y, tmp).

(** iterator(): no stack, no value, of the normal type; trie_map_itr.hpp:135-136, 325-326 *)
Definition default_iter : iter := IT [] [] [] None T_normal.
End WRITE.
