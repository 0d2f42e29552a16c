(** Specification of multi_type_vector in terms of what its reading functions
    report.  Nothing here mentions blocks except where a property is about the
    blocks an iterator walks over. *)
From Coq Require Import List ZArith Lia Bool.
From Verif Require Import Base MtvModel MtvModel2 MtvXfer.
Import ListNotations.

Section S.
Context {V : Type}.
Variable cat : V -> nat.
Variable managed : nat -> bool.
Variable dup : V -> V.
Variable copyable : nat -> bool.
Notation st := (@st V).

(** The container shows the sequence [l] (an entry is a value or empty) through
    size() and get(). *)
Definition shows (s : st) (l : list (option V)) : Prop :=
  size s = length l /\ forall i x, nth_error l i = Some x -> get i s = Ok x.

(** The calls on one container; [hint] is a position hint, if one is passed:
    [Some None] is an iterator of another container. *)
Definition hint := option (option nat).
Inductive op :=
| OSet (h : hint) (pos : nat) (v : V)
| OSetRange (h : hint) (pos : nat) (vs : list V)
| OSetEmpty (h : hint) (a b : nat)
| ORelease (h : hint) (pos : nat)
| OReleaseRange (h : hint) (a b : nat)
| OReleaseAll
| OErase (a b : nat)
| OInsert (h : hint) (pos : nat) (vs : list V)
| OInsertEmpty (h : hint) (pos n : nat)
| OPush (v : V)
| OPushEmpty
| OResize (n : nat)
| OClear.

Definition drop_it {A B} (m : res (A * B)) : res A := let* x := m in Ok (fst x).

(** The modelled call. *)
Definition exec (o : op) (s : st) : res st :=
  match o with
  | OSet h pos v => drop_it (set cat managed h pos v s)
  | OSetRange h pos vs => drop_it (set_range cat managed h pos vs s)
  | OSetEmpty h a b => drop_it (set_empty managed h a b s)
  | ORelease h pos => drop_it (drop_it (release managed h pos s))
  | OReleaseRange h a b => drop_it (release_range managed h a b s)
  | OReleaseAll => Ok (release_all s)
  | OErase a b => erase managed a b s
  | OInsert h pos vs => drop_it (insert cat h pos vs s)
  | OInsertEmpty h pos n => drop_it (insert_empty h pos n s)
  | OPush v => drop_it (push_back cat managed v s)
  | OPushEmpty => drop_it (push_back_empty s)
  | OResize n => resize managed n s
  | OClear => clear managed s
  end.

(** The entries [a, a+n) replaced by [x]. *)
Definition replace_range (a n : nat) (x l : list (option V)) : list (option V) :=
  firstn a l ++ x ++ skipn (a + n) l.

(** What the call should do to the shown sequence; [None]: std::out_of_range. *)
Definition spec (o : op) (l : list (option V)) : option (list (option V)) :=
  match o with
  | OSet _ pos v =>
      if pos <? length l then Some (replace_range pos 1 [Some v] l) else None
  | OSetRange _ pos vs =>
      match vs with
      | [] => Some l
      | _ => if pos + length vs <=? length l
             then Some (replace_range pos (length vs) (map Some vs) l) else None
      end
  | OSetEmpty _ a b | OReleaseRange _ a b =>
      if (a <=? b) && (b <? length l)
      then Some (replace_range a (S b - a) (repeat None (S b - a)) l) else None
  | ORelease _ pos =>
      if pos <? length l then Some (replace_range pos 1 [None] l) else None
  | OReleaseAll | OClear => Some []
  | OErase a b =>
      if (a <=? b) && (b <? length l) then Some (replace_range a (S b - a) [] l) else None
  | OInsert _ pos vs =>
      if pos <? length l then Some (replace_range pos 0 (map Some vs) l) else None
  | OInsertEmpty _ pos n =>
      if n =? 0 then Some l
      else if pos <? length l then Some (replace_range pos 0 (repeat None n) l) else None
  | OPush v => Some (l ++ [Some v])
  | OPushEmpty => Some (l ++ [None])
  | OResize n => Some (firstn n l ++ repeat None (n - length l))
  end.

(** A hint is not used on a container without elements (finding M6). *)
Definition hint_ok (h : hint) (l : list (option V)) : Prop := h = None \/ l <> [].

(** The values of one call have one C++ type. *)
Definition one_type (vs : list V) : Prop := forall x y, In x vs -> In y vs -> cat x = cat y.

(** A shrinking resize does not cut after a managed element (finding M2). *)
Definition cut_ok (n : nat) (l : list (option V)) : Prop :=
  forall v, 0 < n < length l -> nth_error l (n - 1) = Some (Some v) -> managed (cat v) = false.

Definition legal (o : op) (l : list (option V)) : Prop :=
  match o with
  | OSet h _ _ | OSetEmpty h _ _ | ORelease h _ | OReleaseRange h _ _ | OInsertEmpty h _ _ =>
      hint_ok h l
  | OSetRange _ _ vs => one_type vs
  | OInsert h _ vs => hint_ok h l /\ one_type vs
  | OResize n => cut_ok n l
  | _ => True
  end.

(** Containers that a program can build, each call on the way satisfying [A]. *)
Inductive reach (A : list (option V) -> op -> Prop) : st -> Prop :=
| r_size g n : reach A (mk_size g n)
| r_fill g n v : managed (cat v) = false -> reach A (mk_fill cat g n v)
| r_range g n vs s : one_type vs -> mk_range cat g n vs = Ok s -> reach A s
| r_copy g s s' : reach A s -> copy_of dup copyable g s = Ok s' -> reach A s'
| r_step s l o s' : reach A s -> shows s l -> legal o l -> A l o -> exec o s = Ok s' -> reach A s'
| r_xfer_src s d h a b dp s' d' i : reach A s -> reach A d ->
    transfer managed h a b dp s d = Ok (s', d', i) -> reach A s'
| r_xfer_dst s d h a b dp s' d' i : reach A s -> reach A d ->
    transfer managed h a b dp s d = Ok (s', d', i) -> reach A d'
| r_swap_left s o a b p s' o' : reach A s -> reach A o ->
    swap_range cat managed a b p s o = Ok (s', o') -> reach A s'
| r_swap_right s o a b p s' o' : reach A s -> reach A o ->
    swap_range cat managed a b p s o = Ok (s', o') -> reach A o'.

Definition anyop (l : list (option V)) (o : op) : Prop := True.

(** A sequence of calls; a call that throws std::out_of_range leaves the container
    as it was (all the throws happen before the first write). *)
Fixpoint run (os : list op) (s : st) : res st :=
  match os with
  | [] => Ok s
  | o :: os =>
      match exec o s with
      | Ok s' => run os s'
      | Throw _ => run os s
      | Undef => Undef
      end
  end.

Fixpoint run_spec (os : list op) (l : list (option V)) : list (option V) :=
  match os with
  | [] => l
  | o :: os => run_spec os (match spec o l with Some l' => l' | None => l end)
  end.

Fixpoint legal_all (os : list op) (l : list (option V)) : Prop :=
  match os with
  | [] => True
  | o :: os => legal o l /\ legal_all os (match spec o l with Some l' => l' | None => l end)
  end.

(** ** The block an iterator denotes: type (None for the empty type), position, size. *)
Definition block (s : st) (i : nat) : option (option nat * nat * nat) :=
  match nth_error (bl s) i with
  | Some b => Some (dcat (bd b), bp b, bs b)
  | None => None
  end.

(** The block [i] contains the row [pos]. *)
Definition in_block (s : st) (i pos : nat) : Prop :=
  exists c p n, block s i = Some (c, p, n) /\ p <= pos < p + n.

(** The element blocks the container holds, in order (the data pointers seen while
    iterating). *)
Definition blocks_held (s : st) : list ((nat * nat) * nat) := held (bl s).

(** How many entries satisfy [p]. *)
Definition count {A} (p : A -> bool) (l : list A) : nat := length (filter p l).

(** ** Ownership *)

(** The managed object in one entry. *)
Definition object (x : option V) : list V :=
  match x with
  | Some v => if managed (cat v) then [v] else []
  | None => []
  end.
Definition objects (l : list (option V)) : list V := flat_map object l.

(** Objects that a call hands over to the container. *)
Definition given (o : op) : list V :=
  match o with
  | OSet _ _ v | OPush v => object (Some v)
  | OSetRange _ _ vs | OInsert _ _ vs => objects (map Some vs)
  | _ => []
  end.

(** Objects that a call hands back to the caller. *)
Definition taken_back (o : op) (l : list (option V)) : list V :=
  match o with
  | ORelease _ pos => objects (firstn 1 (skipn pos l))
  | OReleaseRange _ a b => objects (firstn (S b - a) (skipn a l))
  | OReleaseAll => objects l
  | _ => []
  end.

Fixpoint given_all (os : list op) (l : list (option V)) : list V :=
  match os with
  | [] => []
  | o :: os =>
      match spec o l with
      | Some l' => given o ++ given_all os l'
      | None => given_all os l
      end
  end.

Fixpoint taken_all (os : list op) (l : list (option V)) : list V :=
  match os with
  | [] => []
  | o :: os =>
      match spec o l with
      | Some l' => taken_back o l ++ taken_all os l'
      | None => taken_all os l
      end
  end.

Definition type_at (l : list (option V)) (i : nat) : option nat :=
  match nth_error l i with Some (Some v) => Some (cat v) | _ => None end.

(** A range set that starts on a row of the new type and whose last row holds a
    managed element of another type (finding M3). *)
Definition leaky (l : list (option V)) (o : op) : Prop :=
  match o with
  | OSetRange _ pos (v0 :: vs) =>
      type_at l pos = Some (cat v0) /\
      exists v, nth_error l (pos + length vs) = Some (Some v) /\ managed (cat v) = true /\ cat v <> cat v0
  | _ => False
  end.

(** A range set that starts on a row of the new type, ends on a row that does not
    have it, and is followed by a row that has it (finding M4). *)
Definition unmerged (l : list (option V)) (o : op) : Prop :=
  match o with
  | OSetRange _ pos (v0 :: vs) =>
      type_at l pos = Some (cat v0) /\
      type_at l (pos + length vs) <> Some (cat v0) /\
      type_at l (pos + S (length vs)) = Some (cat v0)
  | _ => False
  end.

(** A range set on the first rows, but not all, of a stretch of rows that have one
    other type (finding M8). *)
Definition silent (l : list (option V)) (o : op) : Prop :=
  match o with
  | OSetRange _ pos (v0 :: vs) =>
      exists c, c <> cat v0 /\ (pos = 0 \/ type_at l (pos - 1) <> Some c) /\
        forall k, k <= S (length vs) -> type_at l (pos + k) = Some c
  | _ => False
  end.

(** Calls whose block events are not covered by the event theorem: range sets as in
    finding M8 or M4, and inserts as in finding M1. *)
Definition event_exempt (l : list (option V)) (o : op) : Prop :=
  match o with
  | OSetRange _ _ _ => silent l o \/ unmerged l o
  | OInsert _ pos (v0 :: vs) =>
      exists v, nth_error l pos = Some (Some v) /\ cat v <> cat v0 /\
        (pos = 0 \/ (type_at l (pos - 1) <> Some (cat v0) /\ type_at l (pos - 1) <> Some (cat v)))
  | _ => False
  end.

(** No call of the sequence is of a given kind. *)
Fixpoint none_bad (bad : list (option V) -> op -> Prop) (os : list op) (l : list (option V)) : Prop :=
  match os with
  | [] => True
  | o :: os => ~ bad l o /\ none_bad bad os (match spec o l with Some l' => l' | None => l end)
  end.

End S.
