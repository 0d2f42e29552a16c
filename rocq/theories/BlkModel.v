(** Executable model of the element blocks of multi_type_vector with their default store:
    /repo/include/mdds/multi_type_vector/types.hpp and block_funcs.hpp, over the model of
    delayed_delete_vector.hpp.

    Blocks live on a heap; an address is an index into it.  Element values are plain: the
    deletion of objects by managed blocks (types.hpp:814-944) is part of MtvModel.v. *)
From Coq Require Import List ZArith Lia Bool.
From Verif Require Import Base DdvModel.
Import ListNotations.

Section Blk.
Context {V : Type}.
(** ValueT(), for new elements; types.hpp:291-294, 518-527 *)
Variable vdef : V.
(** operator== of ValueT; types.hpp:347-350 *)
Variable veqb : V -> V -> bool.
(** The block types given to element_block_funcs; block_funcs.hpp:42-43 *)
Variable registered : nat -> bool.
(** Block types derived from copyable_element_block; types.hpp:685-719 *)
Variable copyable : nat -> bool.

(** base_element_block with its type, and m_array; types.hpp:148-156, 279-287 *)
Record eb : Type := mkEb { btype : nat; bstore : ddv V }.
(** The blocks, [None] for a deleted one; types.hpp:508-516 *)
Definition heap : Type := list (option eb).

(** find_func; block_funcs.hpp:21-39 *)
Definition find_func (t : nat) : res unit := if registered t then Ok tt else Throw E_general.
(** Dereferencing a pointer to a block; block_funcs.hpp:54-61 *)
Definition load (a : nat) (h : heap) : res eb := match nth_error h a with Some (Some b) => Ok b | _ => Undef end.
(** get(): static_cast to the block class of type [t]; types.hpp:447-473.  A cast to the
    wrong class is undefined (the check is compiled in only for debugging). *)
Definition cast (t : nat) (b : eb) : res (ddv V) := if btype b =? t then Ok (bstore b) else Undef.
(** Writing m_array back; types.hpp:287 *)
Definition save (a : nat) (t : nat) (d : ddv V) (h : heap) : heap := set_nth a (Some (mkEb t d)) h.

(** get_iterator_pair and reading through the iterators; types.hpp:673-683 *)
Definition slice (d : ddv V) (i n : nat) : res (list V) :=
  let* l := ddv_iter d in
  if i + n <=? length l then Ok (firstn n (skipn i l)) else Undef.
(** Assigning values one after the other through an iterator; types.hpp:615-623 *)
Fixpoint put_all (d : ddv V) (i : nat) (l : list V) : res (ddv V) :=
  match l with
  | [] => Ok d
  | v :: r => let* d := ddv_put d i v in put_all d (S i) r
  end.
(** The loop of swap_values; types.hpp:591-607 *)
Fixpoint swap_loop (n i j : nat) (a b : ddv V) : res (ddv V * ddv V) :=
  match n with
  | 0 => Ok (a, b)
  | S n =>
      let* v1 := ddv_get a i in
      let* v2 := ddv_get b j in
      let* a := ddv_put a i v2 in
      let* b := ddv_put b j v1 in
      swap_loop n (S i) (S j) a b
  end.

(** Functions of one block that go through element_block_funcs, and functions of the block
    class of type [t], which the caller names.  types.hpp:475-671, block_funcs.hpp:45-229 *)
Inductive bop : Type :=
| BCreate (t n : nat) | BCreateValue (t n : nat) (v : V) | BCreateValues (t : nat) (l : list V)
| BCopy (a : nat) | BDelete (a : nat)
| BResize (a n : nat) | BErase (a i : nat) | BEraseN (a i n : nat)
| BAppendBlock (a b : nat) | BAppendFrom (a b i n : nat) | BAssignFrom (a b i n : nat) | BPrependFrom (a b i n : nat)
| BSwap (a b i j n : nat) | BOverwrite (a i n : nat) | BShrink (a : nat)
| BSet (t a i : nat) (v : V) | BAppend (t a : nat) (v : V) | BPrepend (t a : nat) (v : V)
| BSetValues (t a i : nat) (l : list V) | BAppendValues (t a : nat) (l : list V) | BPrependValues (t a : nat) (l : list V)
| BAssignValues (t a : nat) (l : list V) | BInsertValues (t a i : nat) (l : list V).

(** A function of element_block_funcs on one block: the type of the block selects the
    function; block_funcs.hpp:99-106 and the others of this form *)
Definition via (a : nat) (f : ddv V -> res (ddv V)) (h : heap) : res heap :=
  let* b := load a h in
  let* _ := find_func (btype b) in
  let* d := f (bstore b) in
  Ok (save a (btype b) d h).
(** A function of the block class of type [t]; e.g. types.hpp:475-478 *)
Definition typed (t a : nat) (f : ddv V -> res (ddv V)) (h : heap) : res heap :=
  let* b := load a h in
  let* d := cast t b in
  let* d := f d in
  Ok (save a t d h).
(** The functions with a source block: the type of the destination selects the function,
    which casts both; block_funcs.hpp:135-175.  The library never passes the same block
    twice (the iterators into it would become invalid): reported as [Undef]. *)
Definition from (a b : nat) (f : ddv V -> ddv V -> res (ddv V)) (h : heap) : res heap :=
  let* x := load a h in
  let* y := load b h in
  let* _ := find_func (btype x) in
  let* s := cast (btype x) y in
  if a =? b then Undef else
  let* d := f (bstore x) s in
  Ok (save a (btype x) d h).

(** One call; a new block goes to the end of the heap.  Lines at each case. *)
Definition bstep (h : heap) (o : bop) : res heap :=
  match o with
  | BCreate t n =>                                                  (* block_funcs.hpp:45-52, types.hpp:508-511 *)
      let* _ := find_func t in Ok (h ++ [Some (mkEb t (ddv_fill n vdef))])
  | BCreateValue t n v => Ok (h ++ [Some (mkEb t (ddv_fill n v))])  (* types.hpp:793-796 *)
  | BCreateValues t l => Ok (h ++ [Some (mkEb t (ddv_range l))])    (* types.hpp:798-802 *)
  | BCopy a =>                                                      (* block_funcs.hpp:54-61, types.hpp:710-714, 748-751 *)
      let* b := load a h in
      let* _ := find_func (btype b) in
      if copyable (btype b) then Ok (h ++ [Some (mkEb (btype b) (ddv_copy (bstore b)))]) else Throw E_element_block
  | BDelete a =>                                                    (* block_funcs.hpp:85-97, types.hpp:513-516 *)
      let* b := load a h in
      let* _ := find_func (btype b) in
      Ok (set_nth a None h)
  | BResize a n => via a (fun d => Ok (ddv_resize vdef d n)) h      (* types.hpp:518-527; shrinking the capacity shows no effect *)
  | BErase a i => via a (fun d => ddv_erase d i) h                  (* types.hpp:543-547 *)
  | BEraseN a i n => via a (fun d => ddv_erase_range d i (i + n)) h (* types.hpp:549-553 *)
  | BAppendBlock a b =>                                             (* types.hpp:555-560 *)
      from a b (fun d s => let* l := ddv_iter s in
        ddv_insert_range d (length (vec d) - off d) l) h
  | BAppendFrom a b i n =>                                          (* types.hpp:562-570 *)
      from a b (fun d s => let* l := slice s i n in
        let d := ddv_compact d in ddv_insert_range d (length (vec d) - off d) l) h
  | BAssignFrom a b i n =>                                          (* types.hpp:572-579 *)
      from a b (fun d s => let* l := slice s i n in Ok (ddv_assign d l)) h
  | BPrependFrom a b i n =>                                         (* types.hpp:581-589 *)
      from a b (fun d s => let* l := slice s i n in ddv_insert_range (ddv_compact d) 0 l) h
  | BSwap a b i j n =>                                              (* block_funcs.hpp:177-189, types.hpp:591-607 *)
      let* x := load a h in
      let* y := load b h in
      let* _ := find_func (btype x) in
      let* s := cast (btype x) y in
      if a =? b then Undef else
      let* (d, s) := swap_loop n i j (bstore x) s in
      Ok (save b (btype x) s (save a (btype x) d h))
  | BOverwrite a i n => via a (fun d => Ok d) h                     (* types.hpp:804-807: nothing for plain values *)
  | BShrink a => via a (fun d => Ok (ddv_compact d)) h              (* types.hpp:666-670 *)
  | BSet t a i v => typed t a (fun d => ddv_put d i v) h            (* types.hpp:475-478 *)
  | BAppend t a v => typed t a (fun d => Ok (ddv_push d v)) h       (* types.hpp:490-500 *)
  | BPrepend t a v => typed t a (fun d => ddv_insert d 0 v) h       (* types.hpp:502-506 *)
  | BSetValues t a i l => typed t a (fun d => put_all d i l) h      (* types.hpp:615-623 *)
  | BAppendValues t a l =>                                          (* types.hpp:625-631 *)
      typed t a (fun d => ddv_insert_range d (length (vec d) - off d) l) h
  | BPrependValues t a l => typed t a (fun d => ddv_insert_range d 0 l) h  (* types.hpp:633-638 *)
  | BAssignValues t a l => typed t a (fun d => Ok (ddv_assign d l)) h      (* types.hpp:640-645 *)
  | BInsertValues t a i l => typed t a (fun d => ddv_insert_range d i l) h (* types.hpp:647-652 *)
  end.
(** A history of calls; block_funcs.hpp:42-230 *)
Fixpoint brun (h : heap) (ops : list bop) : res heap :=
  match ops with [] => Ok h | o :: r => let* h := bstep h o in brun h r end.

(** size; block_funcs.hpp:222-229, types.hpp:372-375 *)
Definition bsize (a : nat) (h : heap) : res Z :=
  let* b := load a h in let* _ := find_func (btype b) in Ok (ddv_size (bstore b)).
(** at; types.hpp:357-365 *)
Definition bat_ (t a i : nat) (h : heap) : res V := let* b := load a h in let* d := cast t b in ddv_at d i.
(** get_value; types.hpp:480-488 *)
Definition bget (t a i : nat) (h : heap) : res V := let* b := load a h in let* d := cast t b in ddv_get d i.
(** Iteration from begin() to end(), also as range(); types.hpp:377-405, 437-445 *)
Definition biter (t a : nat) (h : heap) : res (list V) := let* b := load a h in let* d := cast t b in ddv_iter d.
(** Iteration from rbegin() to rend(); types.hpp:407-435 *)
Definition briter (t a : nat) (h : heap) : res (list V) := let* b := load a h in let* d := cast t b in ddv_riter d.
(** equal_block; block_funcs.hpp:191-202, types.hpp:609-613, 347-350 *)
Definition bequal (a b : nat) (h : heap) : res bool :=
  let* x := load a h in
  let* y := load b h in
  if negb (btype x =? btype y) then Ok false else
  let* _ := find_func (btype x) in
  ddv_eqb veqb (bstore x) (bstore y).
End Blk.
