(** Specification for the search results and the node access of point_quad_tree. *)
From Coq Require Import List ZArith Lia Bool.
From Verif Require Import Base PqtModel PqtIter.
Import ListNotations.
Open Scope Z_scope.

Section S.
Context {V : Type}.
Variable dflt : V.
Notation item := (Z * Z * V)%type.

(** The iterators of one result that a program can hold.  [made false] are those that do
    not come from end(). *)
Inductive made (r : results) : bool -> @sit V -> Prop :=
| m_begin it : res_begin dflt r = Ok it -> made r false it
| m_end it : res_end dflt r = Ok it -> made r true it
| m_inc f it it' : made r f it -> sinc it = Ok it' -> made r f it'
| m_dec f it it' : made r f it -> sdec it = Ok it' -> made r f it'
| m_any it : made r false it -> made r true it.

(** The iterator compares equal to end(), to begin(). *)
Definition is_end (r : results) (it : @sit V) : Prop :=
  exists e, res_end dflt r = Ok e /\ seqb it e = true.
Definition is_begin (r : results) (it : @sit V) : Prop :=
  exists e, res_begin dflt r = Ok e /\ seqb it e = true.

(** [b] lies in the quadrant [q] of [a]. *)
Definition lies (q : quad) (a b : item) : Prop :=
  let '(ax, ay, _) := a in let '(bx, by_, _) := b in
  (bx, by_) <> (ax, ay) /\
  match q with
  | NE => ax <= bx /\ by_ < ay
  | NW => bx < ax /\ by_ < ay
  | SE => ax <= bx /\ ay <= by_
  | SW => bx < ax /\ ay <= by_
  end.

(** The node accesses that a program can get from a tree. *)
Inductive held (t : qt V) : access -> Prop :=
| h_root : held t (get_node_access t)
| h_go q a a' : held t a -> go q t a = Ok a' -> held t a'.

(** [b] is [a] or was reached from it. *)
Inductive below (t : qt V) (a : access) : access -> Prop :=
| b_here : below t a a
| b_go q b b' : below t a b -> go q t b = Ok b' -> below t a b'.

End S.
