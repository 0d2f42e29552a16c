(** Executable model of mdds::mtv::delayed_delete_vector,
    /repo/include/mdds/multi_type_vector/delayed_delete_vector.hpp.

    The std::vector inside is a list.  A client iterator is begin()+i, given by the
    index [i]; using an iterator outside the sequence is undefined.  Capacity and
    reallocation are not modelled. *)
From Coq Require Import List ZArith Lia Bool.
From Verif Require Import Base.
Import ListNotations.

Section DDV.
Context {T : Type}.
(** T{}, used by resize; delayed_delete_vector.hpp:149-153 *)
Variable tdef : T.

(** Members; delayed_delete_vector.hpp:24-25 *)
Record ddv : Type := mkDdv { vec : list T; off : nat }.

(** Default constructor; delayed_delete_vector.hpp:39-40 *)
Definition ddv_new : ddv := mkDdv [] 0.
(** Constructor from a count and a value; delayed_delete_vector.hpp:42-43 *)
Definition ddv_fill (n : nat) (v : T) : ddv := mkDdv (repeat v n) 0.
(** Constructor from a range; delayed_delete_vector.hpp:48-50 *)
Definition ddv_range (l : list T) : ddv := mkDdv l 0.

(** size(), with the wrap of size_t; delayed_delete_vector.hpp:188-191 *)
Definition ddv_size (d : ddv) : Z := ((Z.of_nat (length (vec d)) - Z.of_nat (off d)) mod 2 ^ 64)%Z.
(** operator[]; delayed_delete_vector.hpp:92-100 *)
Definition ddv_get (d : ddv) (i : nat) : res T := deref (nth_error (vec d) (i + off d)).
(** Writing through operator[] or data(); delayed_delete_vector.hpp:92-95, 200-203 *)
Definition ddv_put (d : ddv) (i : nat) (v : T) : res ddv :=
  if (i + off d <? length (vec d))%nat then Ok (mkDdv (set_nth (i + off d) v (vec d)) (off d)) else Undef.
(** at(); delayed_delete_vector.hpp:102-110 *)
Definition ddv_at (d : ddv) (i : nat) : res T :=
  match nth_error (vec d) (i + off d) with Some v => Ok v | None => Throw E_out_of_range end.
(** What iteration from begin() to end() shows; delayed_delete_vector.hpp:52-70.  A begin()
    behind end() is undefined. *)
Definition ddv_iter (d : ddv) : res (list T) :=
  if (off d <=? length (vec d))%nat then Ok (skipn (off d) (vec d)) else Undef.
(** What iteration from rbegin() to rend() shows; delayed_delete_vector.hpp:72-90 *)
Definition ddv_riter (d : ddv) : res (list T) :=
  if (off d <=? length (vec d))%nat then Ok (firstn (length (vec d) - off d) (rev (vec d))) else Undef.
(** push_back and emplace_back; delayed_delete_vector.hpp:112-120, 127-131 *)
Definition ddv_push (d : ddv) (v : T) : ddv := mkDdv (vec d ++ [v]) (off d).
(** swap; delayed_delete_vector.hpp:122-125.  Only the vectors are exchanged. *)
Definition ddv_swap (a b : ddv) : ddv * ddv := (mkDdv (vec b) (off a), mkDdv (vec a) (off b)).
(** insert of one value; delayed_delete_vector.hpp:133-141 *)
Definition ddv_insert (d : ddv) (i : nat) (v : T) : res ddv :=
  if (i + off d <=? length (vec d))%nat then
    Ok (mkDdv (firstn (i + off d) (vec d) ++ v :: skipn (i + off d) (vec d)) (off d)) else Undef.
(** insert of a range; delayed_delete_vector.hpp:143-147 *)
Definition ddv_insert_range (d : ddv) (i : nat) (l : list T) : res ddv :=
  if (i + off d <=? length (vec d))%nat then
    Ok (mkDdv (firstn (i + off d) (vec d) ++ l ++ skipn (i + off d) (vec d)) (off d)) else Undef.
(** clear_removed; delayed_delete_vector.hpp:211-215 *)
Definition clear_removed (d : ddv) : ddv := mkDdv (skipn (off d) (vec d)) 0.
(** std::vector::resize; called from delayed_delete_vector.hpp:149-153 *)
Definition vec_resize (n : nat) (l : list T) : list T := firstn n l ++ repeat tdef (n - length l).
(** resize; delayed_delete_vector.hpp:149-153 *)
Definition ddv_resize (d : ddv) (n : nat) : ddv :=
  let d := clear_removed d in mkDdv (vec_resize n (vec d)) (off d).
(** erase of one element; delayed_delete_vector.hpp:155-164.  begin() is only compared, so the
    first branch does not read the vector. *)
Definition ddv_erase (d : ddv) (i : nat) : res ddv :=
  if (i =? 0)%nat then Ok (mkDdv (vec d) (S (off d)))
  else if (i + off d <? length (vec d))%nat then
    Ok (mkDdv (firstn (i + off d) (vec d) ++ skipn (S (i + off d)) (vec d)) (off d)) else Undef.
(** erase of a range; delayed_delete_vector.hpp:166-169 *)
Definition ddv_erase_range (d : ddv) (i j : nat) : res ddv :=
  if (i <=? j)%nat && (j + off d <=? length (vec d))%nat then
    Ok (mkDdv (firstn (i + off d) (vec d) ++ skipn (j + off d) (vec d)) (off d)) else Undef.
(** shrink_to_fit and reserve; delayed_delete_vector.hpp:176-186 *)
Definition ddv_compact (d : ddv) : ddv := clear_removed d.
(** assign; delayed_delete_vector.hpp:193-198 *)
Definition ddv_assign (d : ddv) (l : list T) : ddv := let d := clear_removed d in mkDdv l (off d).
(** operator==; delayed_delete_vector.hpp:218-222 *)
Definition ddv_eqb (teqb : T -> T -> bool) (a b : ddv) : res bool :=
  let* la := ddv_iter a in let* lb := ddv_iter b in
  Ok ((length la =? length lb)%nat && forallb (fun '(x, y) => teqb x y) (combine la lb)).
(** Implicit copy; delayed_delete_vector.hpp:21 *)
Definition ddv_copy (d : ddv) : ddv := d.
(** Implicit move: the vector is emptied, the offset is a plain member and stays in the source;
    delayed_delete_vector.hpp:21-25.  (moved-to, moved-from) *)
Definition ddv_move (d : ddv) : ddv * ddv := (d, mkDdv [] (off d)).

(** Mutating calls, for histories. delayed_delete_vector.hpp:60-210 *)
Inductive ddv_op : Type :=
| DPush (v : T) | DPut (i : nat) (v : T) | DInsert (i : nat) (v : T) | DInsertRange (i : nat) (l : list T)
| DResize (n : nat) | DErase (i : nat) | DEraseRange (i j : nat) | DCompact | DAssign (l : list T).
(** One call. delayed_delete_vector.hpp:60-210 *)
Definition ddv_step (d : ddv) (o : ddv_op) : res ddv :=
  match o with
  | DPush v => Ok (ddv_push d v)
  | DPut i v => ddv_put d i v
  | DInsert i v => ddv_insert d i v
  | DInsertRange i l => ddv_insert_range d i l
  | DResize n => Ok (ddv_resize d n)
  | DErase i => ddv_erase d i
  | DEraseRange i j => ddv_erase_range d i j
  | DCompact => Ok (ddv_compact d)
  | DAssign l => Ok (ddv_assign d l)
  end.
(** A history. calls of delayed_delete_vector.hpp:60-210 *)
Fixpoint ddv_run (d : ddv) (ops : list ddv_op) : res ddv :=
  match ops with [] => Ok d | o :: rest => let* d' := ddv_step d o in ddv_run d' rest end.
End DDV.
Arguments ddv : clear implicits.
Arguments ddv_op : clear implicits.
