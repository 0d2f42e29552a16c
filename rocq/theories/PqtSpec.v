(** Specification vocabulary for point_quad_tree, independent of its nodes. *)

From Coq Require Import List ZArith Lia Bool.
From Verif Require Import Base PqtModel.
Import ListNotations.
Open Scope Z_scope.

(** What a tree stores, seen from outside: a partial map on points. *)
Definition content (V : Type) : Type := Z -> Z -> option V.

Section Spec.
Context {V : Type}.

Definition nothing : content V := fun _ _ => None.

(** The map with one point (re)bound. *)
Definition put (x y : Z) (v : V) (m : content V) : content V :=
  fun a b => if (a =? x) && (b =? y) then Some v else m a b.

(** The map with one point taken out. *)
Definition drop (x y : Z) (m : content V) : content V :=
  fun a b => if (a =? x) && (b =? y) then None else m a b.

(** find() reports exactly the map [m]. *)
Definition shows (t : qt V) (m : content V) : Prop :=
  forall x y, find x y t = match m x y with Some v => Ok v | None => Throw E_general end.

(** Calls that change a tree. *)
Inductive op :=
| OInsert (x y : Z) (v : V)
| ORemove (x y : Z)
| OClear
| OReplaceByCopy.     (* t.swap(c) with c a copy of t *)

Definition step (t : qt V) (o : op) : res (qt V) :=
  match o with
  | OInsert x y v => Ok (insert x y v t)
  | ORemove x y => remove x y t
  | OClear => Ok (clear t)
  | OReplaceByCopy => Ok (copy t)
  end.

Fixpoint run (t : qt V) (os : list op) : res (qt V) :=
  match os with
  | [] => Ok t
  | o :: r => let* t' := step t o in run t' r
  end.

(** The map a history should leave. *)
Fixpoint ideal (m : content V) (os : list op) : content V :=
  match os with
  | [] => m
  | OInsert x y v :: r => ideal (put x y v m) r
  | ORemove x y :: r => ideal (drop x y m) r
  | OClear :: r => ideal nothing r
  | OReplaceByCopy :: r => ideal m r
  end.

(** Histories without remove(). *)
Definition no_remove (os : list op) : Prop :=
  Forall (fun o => match o with ORemove _ _ => False | _ => True end) os.

(** The node of the tree that find() reads for a point has no children
    (visible through node_access). *)
Definition leaf_at (x y : Z) (t : qt V) : Prop := leaf (find_node x y t) = true.

(** No child of the node at the point has a child in the quadrant that faces
    back to the node (visible through node_access). *)
Definition no_inner_at (x y : Z) (t : qt V) : Prop :=
  forall q, child (opposite q) (child q (find_node x y t)) = QE.

(** The child through which the replacement of the node at the point is
    reached has no child facing back: the replacement is that child itself. *)
Definition direct_at (x y : Z) (t : qt V) : Prop :=
  forall q rx ry, find_replacement x y (find_node x y t) = Some (q, rx, ry) ->
    child (opposite q) (child q (find_node x y t)) = QE.

End Spec.

Arguments op V : clear implicits.
