(** The loop-unrolled and SIMD variants of adjust_block_positions. Indexes are natural numbers
    (the code uses non-negative int64_t values; arrays of 2^63 elements do not exist). *)

From Coq Require Import List ZArith Bool Permutation.
From Verif Require Import Base.
Import ListNotations.

(** types.hpp:43-57 lu_factor_t *)
Inductive lu :=
| LU_none | LU_4 | LU_8 | LU_16 | LU_32
| SSE2 | SSE2_4 | SSE2_8 | SSE2_16 | AVX2 | AVX2_4 | AVX2_8.

Section A.
(** Array elements and the addition made to each of them: for SoA a position
    (soa/block_util.hpp:46), for AoS a block with a position member (aos/block_util.hpp:38) *)
Context {A : Type}.
Variable add : A -> A.

(** positions[i] += delta; outside of the array is undefined. soa/block_util.hpp:46 *)
Definition add_at (i : nat) (ps : list A) : res (list A) :=
  let* x := deref (nth_error ps i) in
  Ok (set_nth i (add x) ps).

(** One SIMD addition on [w] neighbours: all are loaded before any is stored.
    soa/block_util.hpp:252-253, 478-479 *)
Definition add_lanes (i w : nat) (ps : list A) : res (list A) :=
  if Nat.leb (i + w) (length ps)
  then Ok (firstn i ps ++ map add (firstn w (skipn i ps)) ++ skipn (i + w) ps)
  else Undef.

(** One statement of a loop body: offset, and lanes when it is a SIMD statement.
    soa/block_util.hpp:69, 252 *)
Definition stmt := (nat * option nat)%type.
Definition run_stmt (i : nat) (c : stmt) (ps : list A) : res (list A) :=
  match snd c with
  | None => add_at (i + fst c) ps
  | Some w => add_lanes (i + fst c) w ps
  end.
(** soa/block_util.hpp:68-73 a loop body at index [i] *)
Fixpoint run_body (i : nat) (cs : list stmt) (ps : list A) : res (list A) :=
  match cs with
  | [] => Ok ps
  | c :: r => let* ps := run_stmt i c ps in run_body i r ps
  end.
(** The iterations of a loop, in the order given. soa/block_util.hpp:67-73 *)
Fixpoint run_iters (is_ : list nat) (cs : list stmt) (ps : list A) : res (list A) :=
  match is_ with
  | [] => Ok ps
  | i :: r => let* ps := run_body i cs ps in run_iters r cs ps
  end.

(** for (i = a; i < b; i += step), the values of i in order. soa/block_util.hpp:67 *)
Fixpoint iters (fuel a b step : nat) : list nat :=
  match fuel with
  | O => []
  | S f => if Nat.ltb a b then a :: iters f (a + step) b step else []
  end.

(** positions[i + o] += delta for the offsets of an unrolled body. soa/block_util.hpp:69-72 *)
Definition plain (os : list nat) : list stmt := map (fun o => (o, None)) os.
(** A SIMD statement of [w] lanes for every offset. soa/block_util.hpp:288-298 *)
Definition simd (w : nat) (os : list nat) : list stmt := map (fun o => (o, Some w)) os.

(** The mask for the remainder, the step and the body of each unrolled variant.
    soa/block_util.hpp:50-219, 262-445, 452-590; aos/block_util.hpp:43-213 *)
Definition shape (f : lu) : nat * nat * list stmt :=
  match f with
  | LU_4 => (3, 4, plain [0; 1; 2; 3])                                       (* 60-73 *)
  | LU_8 => (7, 8, plain [0; 1; 2; 3; 4; 5; 6; 7])                           (* 92-109 *)
  | LU_16 => (15, 16, plain [0; 1; 2; 3; 4; 5; 6; 7; 8; 9; 10; 11; 12; 13; 14; 15])  (* 128-153 *)
  | LU_32 => (31, 32, plain [0; 1; 2; 3; 4; 5; 6; 7; 8; 9; 10; 11; 12; 13; 14; 15; 16; 17; 18; 19; 20;
                             21; 22; 23; 24; 25; 26; 27; 28; 29; 30; 31])    (* 172-213 *)
  | SSE2 => (1, 2, simd 2 [0])                                               (* 238-254 *)
  | SSE2_4 => (7, 8, simd 2 [0; 2; 4; 6])                                    (* 276-299 *)
  | SSE2_8 => (15, 16, simd 2 [0; 2; 4; 6; 8; 10; 12; 14])                   (* 322-357 *)
  | SSE2_16 => (31, 32, simd 2 [0; 2; 4; 6; 8; 10; 12; 14; 16; 18; 20; 22; 24; 26; 28; 30])  (* 380-439 *)
  | AVX2 => (3, 4, simd 4 [0])                                               (* 466-480 *)
  | AVX2_4 => (15, 16, simd 4 [0; 4; 8; 12])                                 (* 503-526 *)
  | AVX2_8 => (31, 32, simd 4 [0; 4; 8; 12; 16; 20; 24; 28])                 (* 549-584 *)
  | LU_none => (0, 1, plain [0])                                             (* 45-46 *)
  end.

(** operator() of all variants; [ord] reorders the iterations of the loop that OpenMP runs in
    parallel (each iteration is taken as atomic). soa/block_util.hpp:33-590; the variant without
    unrolling, 33-47, is the one with step 1; the odd element of sse2_x64, 239-257, is a
    remainder of one *)
Definition adjust (f : lu) (ord : list nat -> list nat) (start : nat) (ps : list A) : res (list A) :=
  let n := length ps in
  if Nat.leb n start then Ok ps
  else
    let '(mask, step, body) := shape f in
    let len := n - start in
    let rem := Nat.land len mask in
    let len := len - rem + start in
    let* ps := run_iters (ord (iters n start len step)) body ps in
    run_iters (iters n len (rem + len) 1) (plain [0]) ps.

End A.

(** Unsigned 64-bit addition of a signed delta. soa/block_util.hpp:46, 253 (_mm_add_epi64) *)
Definition add64 (delta p : Z) : Z := ((p + delta) mod 2 ^ 64)%Z.
(** The position of an AoS block. aos/block_util.hpp:38 *)
Definition add64_blk {B} (delta : Z) (b : Z * B) : Z * B := (add64 delta (fst b), snd b).
