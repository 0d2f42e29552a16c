(** Specification for the iterators of multi_type_vector: what a caller sees of them. *)
From Coq Require Import List ZArith Lia Bool.
From Verif Require Import Base MtvModel MtvIter.
Import ListNotations.

Section IterSpec.
Context {V : Type}.
Variable cat : V -> nat.
Notation st := (@st V).
Notation node := (@node V).
Notation iter := (@iter V).

(** The node tells the truth about the rows [x]: it has as many, at least one, and
    either all are empty and there is no data, or the data holds just these values,
    all of the type of the node. *)
Definition node_shows (n : node) (x : list (option V)) : Prop :=
  nsize n = length x /\ x <> [] /\
  match ntype n with
  | None => ndata n = None /\ forall y, In y x -> y = None
  | Some c => exists e, ndata n = Some e /\ x = map Some (ev e) /\ forall v, In v (ev e) -> cat v = c
  end.

(** The nodes cover the rows [l], in order and without gaps, from row [p] on. *)
Fixpoint tiles (p : nat) (ns : list node) (l : list (option V)) : Prop :=
  match ns with
  | [] => l = []
  | n :: t => npos n = p /\ exists x r, l = x ++ r /\ node_shows n x /\ tiles (p + length x) t r
  end.

(** The public part of a node. *)
Definition public (n : node) : option nat * nat * nat * option eblk :=
  (ntype n, npos n, nsize n, ndata n).

(** The iterators that a program can hold. *)
Inductive made (fwd : bool) (s : st) : iter -> Prop :=
| m_begin it : it_begin fwd s = Ok it -> made fwd s it
| m_end it : it_end fwd s = Ok it -> made fwd s it
| m_at i it : fwd = true -> it_at s i = Ok it -> made fwd s it
| m_inc it it' : made fwd s it -> inc fwd s it = Ok it' -> made fwd s it'
| m_dec it it' : made fwd s it -> dec fwd s it = Ok it' -> made fwd s it'
| m_const it it' : made fwd s it -> to_const fwd s it = Ok it' -> made fwd s it'.

(** The iterator compares equal to end(), to begin(). *)
Definition at_end (fwd : bool) (s : st) (it : iter) : Prop :=
  exists e, it_end fwd s = Ok e /\ iter_eqb it e = true.
Definition at_begin (fwd : bool) (s : st) (it : iter) : Prop :=
  exists e, it_begin fwd s = Ok e /\ iter_eqb it e = true.

(** What the container promises of its blocks, row positions given by the sizes of the
    blocks before: position, a size above zero, as many values as the size says. *)
Definition sum_sizes (l : list (@blk V)) : nat := list_sum (map (@bs V) l).
Definition block_sound (l : list (@blk V)) (i : nat) (b : @blk V) : Prop :=
  bp b = sum_sizes (firstn i l) /\ 0 < bs b /\ (forall e, bd b = Some e -> length (ev e) = bs b).

(** All of it: every block sound, neighbours of different types, the right total. *)
Definition all_sound (s : st) : Prop :=
  (forall i b, nth_error (bl s) i = Some b -> block_sound (bl s) i b) /\
  (forall i b b', nth_error (bl s) i = Some b -> nth_error (bl s) (S i) = Some b' ->
     dcat (bd b) <> dcat (bd b')) /\
  sum_sizes (bl s) = size s.

End IterSpec.
