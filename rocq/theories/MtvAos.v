(** Model of mdds::mtv::aos::multi_type_vector, the array-of-structures layout.

    The state of MtvModel.v is a list of records (position, size, data), which is the
    layout of this container (aos/main.hpp:75-93).  Its functions were compared with
    those of the structure-of-arrays container line by line; they make the same reads,
    writes, element block calls and event calls in the same order, except for the
    functions below.  The others are taken from MtvModel.v, MtvModel2.v and MtvXfer.v;
    their lines in aos/main_def.inl:
      set 350-419, 607-662, set_impl 442-579, release_impl 583-603, push_back 666-693,
      push_back_impl 728-759, push_back_empty 798-813, get_block_position 894-951,
      create_new_block_with_new_cell 955-970, set_cell_to_middle_of_block 994-1002,
      append_cell_to_block 1006-1010, set_cell_to_empty_block 1014-1340,
      set_cell_to_block_of_size_one 1344-1519 (set_cell_to_non_empty_block_of_size_one
      in the other layout), set_cell_to_top_of_data_block 1523-1538,
      set_cell_to_bottom_of_data_block 1542-1555, get 1559-1590, release 1594-1648,
      release_range 1651-1672, position 1675-1758, transfer 1761-1861,
      transfer_impl 1914-1944, transfer_single_block 1947-2053,
      transfer_multi_blocks 2056-2346, set_empty_impl 2349-2389, swap_impl 2392-2424,
      swap_single_block 2427-2564, swap_single_to_multi_blocks 2567-2664,
      swap_multi_to_multi_blocks 2667-2706, insert_blocks_at 2709-2720,
      prepare_blocks_to_transfer 2723-2802, erase 2805-2834, erase_impl 2837-2931,
      erase_in_single_block 2934-3018, insert_empty 3021-3097,
      insert_empty_impl 3100-3193, set_cells_impl 3197-3212,
      insert_cells_to_middle 3316-3357, set_new_block_to_middle 3360-3438,
      get_previous_block_of_type 3441-3453 and get_next_block_of_type 3456-3468
      (is_previous_block_of_type, is_next_block_of_type in the other layout),
      exchange_elements 3471-3629, 3684-3706, append_empty 3632-3662,
      set_cells_to_single_block 3710-3874, set_cells_to_multi_blocks 3878-3897,
      set_cells_to_multi_blocks_block1_non_equal 3901-4032,
      set_cells_to_multi_blocks_block1_non_empty 4036-4116,
      merge_with_adjacent_blocks 4119-4211, merge_with_next_block 4214-4253,
      append_to_prev_block 4257-4268, clear 4271-4276, resize 4298-4323,
      resize_impl 4326-4374, swap 4377-4449, set_whole_block_empty 4542-4601,
      set_empty_in_single_block 4604-4682, set_empty_in_multi_blocks 4685-4829.
    Copy-on-write does not exist in this layout.  Not modelled: the transfer with a
    position hint does not refuse the container itself as destination (1814-1861). *)
From Coq Require Import List ZArith Lia Bool.
From Verif Require Import Base MtvModel MtvModel2 MtvXfer MtvSpec.
Import ListNotations.

Section Aos.
Context {V : Type}.
Variable cat : V -> nat.
Variable managed : nat -> bool.
Variable veq : V -> V -> bool.
Variable dup : V -> V.
Variable copyable : nat -> bool.
Notation eblk := (@eblk V).
Notation blk := (@blk V).
Notation st := (@st V).

(** insert_cells_impl, aos/main_def.inl:3216-3312.  Unlike in the other layout, the new
    block is the one that is reported (3294-3296). *)
Definition insert_cells_impl_aos (row bi : nat) (vs : list V) (s : st) : res (st * nat) :=
  let* start := pos_at bi s in
  match vs with
  | [] => Ok (s, nblk s)
  | v0 :: _ =>
    let c := cat v0 in
    let len := length vs in
    let* d := data_at bi s in
    match d with
    | None =>
        if row =? start then
          let* pv := is_prev bi (Some c) s in
          if pv then
            let* s := on (pred bi) (e_append cat vs) s in
            let* s := size_add (pred bi) len s in
            let s := with_cs (cs s + len) s in
            let* s := adj_up bi len s in
            Ok (s, pred bi)
          else
            let* p := pos_at bi s in
            let* s := ins bi (BK p len None) s in
            let (e, s) := fresh c s in
            let* s := set_data bi (Some e) s in
            let s := ev_acq e s in
            let* s := on bi (e_assign cat vs) s in
            let s := with_cs (cs s + len) s in
            let* s := adj_up (S bi) len s in
            Ok (s, bi)
        else
          let* s := insert_cells_to_middle cat row bi c vs s in
          Ok (with_cs (cs s + len) s, S bi)
    | Some old =>
        if c =? ecat old then
          let* s := on bi (e_insert cat (row - start) vs) s in
          let* s := size_add bi len s in
          let s := with_cs (cs s + len) s in
          let* s := adj_up (S bi) len s in
          Ok (s, bi)
        else if row =? start then
          let* pv := is_prev bi (Some c) s in
          if pv then
            let* s := on (pred bi) (e_append cat vs) s in
            let* s := size_add (pred bi) len s in
            let s := with_cs (cs s + len) s in
            let* s := adj_up bi len s in
            Ok (s, pred bi)
          else
            let* p := pos_at bi s in
            let* s := ins bi (BK p len None) s in
            let (e, s) := fresh c s in
            let* s := set_data bi (Some e) s in
            let s := ev_acq e s in
            let* s := on bi (e_assign cat vs) s in
            let* s := set_size bi len s in
            let s := with_cs (cs s + len) s in
            let* s := adj_up (S bi) len s in
            Ok (s, bi)
        else
          let* s := insert_cells_to_middle cat row bi c vs s in
          Ok (with_cs (cs s + len) s, S bi)
    end
  end.

(** insert, aos/main_def.inl:817-891. *)
Definition insert_aos (hint : option (option nat)) (pos : nat) (vs : list V) (s : st)
  : res (st * nat) :=
  let* bi := locate hint pos s in insert_cells_impl_aos pos bi vs s.

(** The loop of the copy constructor, aos/main_def.inl:312-319: the blocks are copied in
    place one after the other.  The second component lists the element blocks made so
    far. *)
Fixpoint copy_bl_aos (g k : nat) (l : list blk) : res (list blk) * list eblk :=
  match l with
  | [] => (Ok [], [])
  | b :: t =>
      match bd b with
      | None =>
          let (r, made) := copy_bl_aos g (S k) t in
          (let* t' := r in Ok (BK (bp b) (bs b) None :: t'), made)
      | Some e =>
          match copy_data dup copyable (g, k) e with
          | Ok e' =>
              let (r, made) := copy_bl_aos g (S k) t in
              (let* t' := r in Ok (BK (bp b) (bs b) (Some e') :: t'), e' :: made)
          | Throw x => (Throw x, [])
          | Undef => (Undef, [])
          end
      end
  end.

(** Copy constructor, aos/main_def.inl:307-324: the new container, and the element blocks
    that nobody refers to after the call.  If copy_block throws, the destructor does
    not run, and the block records have a trivial destructor (aos/main.hpp:87). *)
Definition copy_of_aos (g : nat) (s : st) : res st * list eblk :=
  match copy_bl_aos g 0 (bl s) with
  | (Ok l, _) => (Ok (ST l (cs s) (length l) g (held l) [] []), [])
  | (Throw x, made) => (Throw x, made)
  | (Undef, made) => (Undef, made)
  end.

(** clone(), without copy-on-write: soa/main_def.inl:141-157, 455-484, 622-637 and
    aos/main_def.inl:270-305, 342-346.  clone_block, types.hpp:188-277, makes the new
    elements; it throws for the types without a way to clone.  In both layouts the
    clones made before a throw are deleted (soa/main_def.inl:42-68,
    aos/main_def.inl:279-292).  The event handler is the one of the source or the one
    passed; what it has been told before is not part of the new container. *)
Definition clone_of (clone : V -> V) (cloneable : nat -> bool) (g : nat) (s : st) : res st :=
  copy_of clone cloneable g s.

(** The loop of operator==, aos/main_def.inl:4478-4512; equal_block compares the types
    and the elements (block_funcs.hpp:191-202). *)
Fixpoint eq_bl_aos (l1 l2 : list blk) : bool :=
  match l1, l2 with
  | [], [] => true
  | x :: t1, y :: t2 => (bs x =? bs y) && data_eqb veq (bd x) (bd y) && eq_bl_aos t1 t2
  | _, _ => false
  end.

(** operator==, aos/main_def.inl:4465-4515 (the test for the same object only skips the
    comparison).  Positions are not compared. *)
Definition eq_aos (a b : st) : bool :=
  (length (bl a) =? length (bl b)) && (cs a =? cs b) && eq_bl_aos (bl a) (bl b).

(** A call on this container.  The calls other than insert are those of the other
    layout: set 350-419, 607-662, set_empty 1890-1911, release 1608-1660, erase
    2805-2834, insert_empty 3021-3097, push_back 666-693, push_back_empty 798-813,
    resize 4298-4323, clear 4271-4276 of aos/main_def.inl:350. *)
Definition exec_aos (o : @op V) (s : st) : res st :=
  match o with
  | OInsert h pos vs => drop_it (insert_aos h pos vs s)
  | _ => exec cat managed o s
  end.

(** A sequence of calls, as [run] in MtvSpec.v (aos/main_def.inl:350-4829). *)
Fixpoint run_aos (os : list (@op V)) (s : st) : res st :=
  match os with
  | [] => Ok s
  | o :: os =>
      match exec_aos o s with
      | Ok s' => run_aos os s'
      | Throw _ => run_aos os s
      | Undef => Undef
      end
  end.

End Aos.
