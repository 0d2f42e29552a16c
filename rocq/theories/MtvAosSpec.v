(** Specification side for the array-of-structures container: which containers a
    program can build, and which calls the event account leaves out. *)
From Coq Require Import List ZArith Lia Bool.
From Verif Require Import Base MtvModel MtvModel2 MtvXfer MtvSpec MtvAos.
Import ListNotations.

Section S.
Context {V : Type}.
Variable cat : V -> nat.
Variable managed : nat -> bool.
Variable dup : V -> V.
Variable copyable : nat -> bool.
Notation st := (@st V).
Notation op := (@op V).

(** Containers that a program can build, each call on the way satisfying [A]. *)
Inductive reach_aos (A : list (option V) -> op -> Prop) : st -> Prop :=
| ra_size g n : reach_aos A (mk_size g n)
| ra_fill g n v : managed (cat v) = false -> reach_aos A (mk_fill cat g n v)
| ra_range g n vs s : one_type cat vs -> mk_range cat g n vs = Ok s -> reach_aos A s
| ra_copy g s s' w : reach_aos A s -> copy_of_aos dup copyable g s = (Ok s', w) -> reach_aos A s'
| ra_step s l o s' : reach_aos A s -> shows s l -> legal cat managed o l -> A l o ->
    exec_aos cat managed o s = Ok s' -> reach_aos A s'
| ra_xfer_src s d h a b dp s' d' i : reach_aos A s -> reach_aos A d ->
    transfer managed h a b dp s d = Ok (s', d', i) -> reach_aos A s'
| ra_xfer_dst s d h a b dp s' d' i : reach_aos A s -> reach_aos A d ->
    transfer managed h a b dp s d = Ok (s', d', i) -> reach_aos A d'
| ra_swap_left s o a b p s' o' : reach_aos A s -> reach_aos A o ->
    swap_range cat managed a b p s o = Ok (s', o') -> reach_aos A s'
| ra_swap_right s o a b p s' o' : reach_aos A s -> reach_aos A o ->
    swap_range cat managed a b p s o = Ok (s', o') -> reach_aos A o'.

(** Range sets as in finding M8 or M4. *)
Definition exempt_aos (l : list (option V)) (o : op) : Prop := silent cat l o \/ unmerged cat l o.

(** The entries before the first one whose type cannot be copied. *)
Fixpoint before_uncopyable (l : list (option V)) : list (option V) :=
  match l with
  | [] => []
  | None :: t => None :: before_uncopyable t
  | Some v :: t => if copyable (cat v) then Some v :: before_uncopyable t else []
  end.

End S.
