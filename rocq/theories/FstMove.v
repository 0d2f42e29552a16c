(** Model of copying, moving, swapping and assigning mdds::flat_segment_tree.

    A program holds any number of trees; the world is the list of them.  A tree that was
    moved from has null leaf pointers ([Gone]).  Simplification: the destruction of a
    tree gives its memory back and is not visible (destroy,
    flat_segment_tree_def.inl:829-835). *)
From Coq Require Import List ZArith Lia Bool.
From Verif Require Import Base FstModel.
Import ListNotations.
Open Scope Z_scope.

Section FstMove.
Context {V : Type}.
(** operator== of the value type; flat_segment_tree.hpp:42-50 *)
Variable veqb : V -> V -> bool.
(** value_type{}; flat_segment_tree_def.inl:70-73 *)
Variable vnull : V.
Notation fst_t := (@fst_t V).
Notation op := (@op V).

(** A tree object, in use or moved from; flat_segment_tree_def.inl:106-114 *)
Inductive obj : Type :=
| Live (t : fst_t)
| Gone.

(** A call on a tree that was moved from.  Only the calls that return before they look at
    a leaf are defined: flat_segment_tree_def.inl:173-174 and 840-842, 364-365, 461-462,
    743-744.  A hint into a tree that was moved from is not modelled (undefined). *)
Definition gone_call (o : op) : res obj :=
  match o with
  | OFront s e _ | OBack s e _ | OHint None s e _ => if e <=? s then Ok Gone else Undef
  | OHint (Some _) _ _ _ => Undef
  | OShiftL s e => if e <=? s then Ok Gone else Undef
  | OShiftR _ n _ => if n <=? 0 then Ok Gone else Undef
  | OBuild => Ok Gone
  | OClear | OCopy => Undef
  end.
(** A call on an object; flat_segment_tree.hpp:200-460 *)
Definition call (o : op) (x : obj) : res obj :=
  match x with
  | Live t => let* t' := step veqb t o in Ok (Live t')
  | Gone => gone_call o
  end.
(** Copy constructor; flat_segment_tree_def.inl:76-104.  Reads the left leaf. *)
Definition copy_obj (x : obj) : res obj :=
  match x with
  | Live t => Ok (Live (fst_copy t))
  | Gone => Undef
  end.
(** search(); flat_segment_tree_def.inl:548-560 *)
Definition search_obj (x : obj) (k : Z) :=
  match x with
  | Live t => search t k
  | Gone => Undef
  end.
(** search_tree(); flat_segment_tree_def.inl:625-672.  The test of m_valid_tree comes
    before the leaves are looked at. *)
Definition search_tree_obj (x : obj) (k : Z) :=
  match x with
  | Live t => search_tree t k
  | Gone => Ok None
  end.
(** operator==; flat_segment_tree_def.inl:760-791 *)
Definition eqb_obj (x y : obj) : bool :=
  match x, y with
  | Live a, Live b => fst_eqb veqb a b
  | Gone, Gone => true
  | _, _ => false
  end.

(** What a program can do with its trees; flat_segment_tree.hpp:231-460 *)
Inductive cmd : Type :=
| CNew (mn mx : Z) (d : V)
| CCopy (j : nat)
| CMove (j : nat)
| CAssign (i j : nat)
| CMoveAssign (i j : nat)
| CSwap (i j : nat)
| CCall (i : nat) (o : op).

(** One command: the constructors 57-114, operator= 123-139 and swap 141-149 of
    flat_segment_tree_def.inl:57-149.  A move takes all members, so that the search tree
    goes with it; operator= makes a new tree and exchanges it with the target. *)
Definition exec (w : list obj) (c : cmd) : res (list obj) :=
  match c with
  | CNew mn mx d => Ok (w ++ [Live (fst_new vnull mn mx d)])
  | CCopy j =>
      let* x := deref (nth_error w j) in
      let* y := copy_obj x in
      Ok (w ++ [y])
  | CMove j =>
      let* x := deref (nth_error w j) in
      Ok (set_nth j Gone w ++ [x])
  | CAssign i j =>
      let* x := deref (nth_error w j) in
      let* y := copy_obj x in
      let* _ := deref (nth_error w i) in
      Ok (set_nth i y w)
  | CMoveAssign i j =>
      let* x := deref (nth_error w j) in
      let w := set_nth j Gone w in
      let* _ := deref (nth_error w i) in
      Ok (set_nth i x w)
  | CSwap i j =>
      let* x := deref (nth_error w i) in
      let* y := deref (nth_error w j) in
      Ok (set_nth j x (set_nth i y w))
  | CCall i o =>
      let* x := deref (nth_error w i) in
      let* y := call o x in
      Ok (set_nth i y w)
  end.
(** A whole program; flat_segment_tree.hpp:200-460 *)
Fixpoint execs (w : list obj) (cs : list cmd) : res (list obj) :=
  match cs with
  | [] => Ok w
  | c :: cs => let* w := exec w c in execs w cs
  end.

End FstMove.
