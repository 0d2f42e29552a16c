(** What a user expects of an R-tree, in terms of boxes and lists of entries only. *)

From Coq Require Import List ZArith Bool Permutation.
From Verif Require Import Base RtModel.
Import ListNotations.
Open Scope Z_scope.

(** Box [b] lies within box [B] *)
Definition box_in (b B : list (Z * Z)) : Prop :=
  Forall2 (fun i J => fst J <= fst i /\ snd i <= snd J) b B.
(** Two boxes have a point in common *)
Definition boxes_meet (q b : list (Z * Z)) : Prop :=
  exists p, Forall2 (fun x i => fst i <= x <= snd i) p q /\ Forall2 (fun x i => fst i <= x <= snd i) p b.
(** Point [p] is in box [b] *)
Definition point_in (p : list Z) (b : list (Z * Z)) : Prop := Forall2 (fun x i => fst i <= x <= snd i) p b.
(** The box that consists of one point *)
Definition point_box (p : list Z) : list (Z * Z) := map (fun x => (x, x)) p.
(** start does not exceed end in any dimension *)
Definition box_ok (b : list (Z * Z)) : Prop := Forall (fun i => fst i <= snd i) b.

(** [r] consists of the elements of [l] that satisfy [P], each as often as in [l] *)
Definition selects {A} (P : A -> Prop) (r l : list A) : Prop :=
  exists f : A -> bool, (forall x, In x l -> (f x = true <-> P x)) /\ Permutation r (filter f l).

(** [B] is the smallest box around the boxes [l] *)
Definition smallest_around (B : list (Z * Z)) (l : list (list (Z * Z))) : Prop :=
  forall X, box_in B X <-> Forall (fun b => box_in b X) l.

Section Obs.
Context {V : Type}.

(** Boxes and values of a search result *)
Definition found (r : list (nat * nat * box * V)) : list (box * V) := map (fun x => (snd (fst x), snd x)) r.

(** Every directory box encloses the boxes of its children *)
Inductive enclosing : nd V -> Prop :=
| enc_val a p b v : enclosing (NV a p b v)
| enc_dir a p lf b c ok ks :
    Forall (fun k => box_in (nbox k) b) ks -> Forall enclosing ks -> enclosing (ND a p lf b c ok ks).

(** The entries of a tree *)
Fixpoint contents (n : nd V) : list (box * V) :=
  match n with
  | NV _ _ b v => [(b, v)]
  | ND _ _ _ _ _ _ ks => flat_map contents ks
  end.

(** The depth of every value below a node at depth [d] *)
Fixpoint value_depths (d : nat) (n : nd V) : list nat :=
  match n with
  | NV _ _ _ _ => [d]
  | ND _ _ _ _ _ _ ks => flat_map (value_depths (S d)) ks
  end.

(** The number of children of every directory below a node *)
Fixpoint fills_below (n : nd V) : list nat :=
  match n with
  | NV _ _ _ _ => []
  | ND _ _ _ _ _ _ ks =>
      flat_map (fun k => (if is_dir k then [length (nkids k)] else []) ++ fills_below k) ks
  end.

(** Histories of insertions and clears that returned normally, with the entries a user
    expects afterwards, the last one in front *)
Inductive built (C : cfg) : st V -> list (box * V) -> Prop :=
| built_new : built C (init C) []
| built_insert s l b v s' : built C s l -> length b = dims C -> insert C b v s = Ok s' ->
    built C s' ((b, v) :: l)
| built_clear s l : built C s l -> built C (clear C s) [].

End Obs.
