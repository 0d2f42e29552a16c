(** Specification of multi_type_matrix in terms of its reading functions. *)
From Coq Require Import List ZArith Lia Bool.
From Verif Require Import Base MtvModel MtvModel2 MtvSpec MtxModel.
Import ListNotations.

Section S.
Context {V : Type}.
Variable cat : V -> nat.
Variable kind : nat -> option mty.
Notation mtx := (@mtx V).
Notation node := (@node V).

(** The calls that change one matrix; the calls with a position object obtain it
    from position(row, col). *)
Inductive mop :=
| MSet (i j : nat) (v : V)
| MSetAt (i j : nat) (v : V)
| MSetEmpty (i j : nat)
| MSetEmptyLen (i j n : nat)
| MSetEmptyAt (i j : nat)
| MColumnEmpty (j : nat)
| MRowEmpty (i : nat)
| MSetRange (i j : nat) (vs : list V)
| MSetRangeAt (i j : nat) (vs : list V)
| MSetColumn (j : nat) (vs : list V)
| MTranspose (g : nat)
| MCopyVals (r c : nat) (vs : list V)
| MResize (g r c : nat)
| MResizeVal (g r c : nat) (v : V)
| MClear.

Definition mexec (o : mop) (m : mtx) : res mtx :=
  match o with
  | MSet i j v => mset cat i j v m
  | MSetAt i j v => let* p := mposition None i j m in drop_it (mset_at cat p v m)
  | MSetEmpty i j => mset_empty i j m
  | MSetEmptyLen i j n => mset_empty_len i j n m
  | MSetEmptyAt i j => let* p := mposition None i j m in drop_it (mset_empty_at p m)
  | MColumnEmpty j => mset_column_empty j m
  | MRowEmpty i => mset_row_empty i m
  | MSetRange i j vs => mset_range cat i j vs m
  | MSetRangeAt i j vs => let* p := mposition None i j m in drop_it (mset_range_at cat p vs m)
  | MSetColumn j vs => mset_column cat j vs m
  | MTranspose g => transpose cat kind g m
  | MCopyVals r c vs => mcopy_vals cat kind r c vs m
  | MResize g r c => mresize cat kind g r c m
  | MResizeVal g r c v => mresize_val cat kind g r c v m
  | MClear => mclear m
  end.

(** The values of one call have one C++ type. *)
Definition mlegal (o : mop) : Prop :=
  match o with
  | MSetRange _ _ vs | MSetRangeAt _ _ vs | MSetColumn _ vs | MCopyVals _ _ vs => one_type cat vs
  | _ => True
  end.

(** Matrices that a program can build. *)
Inductive mreach : mtx -> Prop :=
| m_default g : mreach (mk0 g)
| m_dims g r c : mreach (mk g r c)
| m_val g r c v : mreach (mk_val cat g r c v)
| m_vals g r c vs m : one_type cat vs -> mk_vals cat kind g r c vs = Ok m -> mreach m
| m_copy g m m' : mreach m -> mk_copy g m = Ok m' -> mreach m'
| m_assign g m other m' : mreach m -> mreach other -> massign g m other = Ok m' -> mreach m'
| m_step m o m' : mreach m -> mlegal o -> mexec o m = Ok m' -> mreach m'
| m_copy_from src m m' : mreach src -> mreach m -> mcopy cat kind src m = Ok m' -> mreach m'.

(** The kind of a cell; [None] if the matrix does not support its type. *)
Definition kind_of (x : option V) : option (option mty) :=
  match x with
  | None => Some None
  | Some v => option_map Some (kind (cat v))
  end.

(** The dimensions of [m] are [r] and [c], and reading cell (i, j) gives [f i j]. *)
Definition cells (m : mtx) (r c : nat) (f : nat -> nat -> res (option V)) : Prop :=
  rows m = r /\ cols m = c /\ forall i j, i < r -> j < c -> mget i j m = f i j.

(** The cell (a, b) is one of the [n] cells that follow (i, j) in column-major order,
    (i, j) included, in a matrix with [r] rows. *)
Definition in_run (r i j n a b : nat) : bool :=
  (r * j + i <=? r * b + a) && (r * b + a <? r * j + i + n).

(** Every cell has a supported type. *)
Definition supported (m : mtx) : Prop :=
  forall i j v, i < rows m -> j < cols m -> mget i j m = Ok (Some v) -> kind (cat v) <> None.

(** Every cell of the first [r] rows and [c] columns is empty or holds a double, a
    bool or a string (not an integer, and no type the matrix does not support). *)
Definition plain (r c : nat) (m : mtx) : Prop :=
  forall i j v, i < r -> j < c -> mget i j m = Ok (Some v) ->
  kind (cat v) <> None /\ kind (cat v) <> Some KInt.

(** The cells that a functor sees in a node: begin() to end() of the block type, or
    [size] empty cells. *)
Definition node_cells (n : node) : list (option V) :=
  match ndata n with
  | None => repeat None (nsize n)
  | Some e => map Some (firstn (nsize n) (skipn (noff n) (ev e)))
  end.

(** A node as the functor may rely on: not empty, its range inside the block and its
    type that of every cell in it. *)
Definition node_ok (n : node) : Prop :=
  0 < nsize n /\ length (node_cells n) = nsize n /\
  forall x, In x (node_cells n) -> kind_of x = Some (ntype n).

(** The cells of the sub-matrix with rows [i, i + n) and columns [j, j + k), column
    by column, as the matrix reports them. *)
Definition area (m : mtx) (i n j k : nat) : list (res (option V)) :=
  flat_map (fun b => map (fun a => mget a b m) (seq i n)) (seq j k).

End S.
