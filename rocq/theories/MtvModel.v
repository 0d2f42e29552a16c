(** Model of mdds::mtv::soa::multi_type_vector.

    Source: /repo/include/mdds/multi_type_vector/soa/main_def.inl,
    /repo/include/mdds/multi_type_vector/types.hpp,
    /repo/include/mdds/multi_type_vector/util.hpp and
    /repo/include/mdds/multi_type_vector/soa/block_util.hpp.

    Simplifications that hold for the whole file:
    - The three parallel arrays positions / sizes / element_blocks are one list of
      records with the three fields; every access keeps its own field.
    - size_type is [nat]: no wrap-around at 2^64.  A subtraction applied to a
      stored size or position is checked and becomes [Undef] when it would go below
      zero (where the code would wrap to a huge value).
    - An element block pointer is the record stored in its slot (identity field
      [eid]); a local variable that holds such a pointer is read from the slot.
      Element blocks that no slot holds are plain local records.
    - [assert] does nothing (release build), debug-only code is left out.
    - An iterator is the index of its block.
    - A value type is a category number; the template functions mdds_mtv_* and
      block_funcs::* dispatch on it.  Applying one to a block of another category
      (a wrong static_cast) is [Undef]. *)
From Coq Require Import List ZArith Lia Bool.
From Verif Require Import Base.
Import ListNotations.

Section Mtv.
Context {V : Type}.
(** mdds_mtv_get_element_type of a value: standard_element_blocks.hpp, macro.hpp. *)
Variable cat : V -> nat.
(** Element types whose blocks own heap objects (managed_element_block,
    noncopyable_managed_element_block): types.hpp:814-944. *)
Variable managed : nat -> bool.

(** base_element_block with its type and m_array, types.hpp:279-298; [eid] is the
    address of the block. *)
Record eblk := EB { eid : nat * nat; ecat : nat; ev : list V }.

(** One slot of blocks_type, soa/main.hpp:129-165. *)
Record blk := BK { bp : nat; bs : nat; bd : option eblk }.

(** What an event handler or an allocator can tell about a block. *)
Local Notation bref := ((nat * nat) * nat)%type.

(** The container (soa/main.hpp:640-1180: m_block_store, m_cur_size) plus history
    that is not stored in the code: [nid], [tag] supply addresses of new blocks;
    [acq], [rel] are the arguments of the element_block_acquired and
    element_block_released calls made so far; [freed] are the heap objects deleted
    so far by managed blocks. *)
Record st := ST {
  bl : list blk; cs : nat; nid : nat; tag : nat;
  acq : list bref; rel : list bref; freed : list V }.

(** ** Slot access: subscript operators of the three std::vectors. *)

(** Number of slots, positions.size(). e.g. soa/main_def.inl:663 *)
Definition nblk (s : st) : nat := length (bl s).

(** Replace the block list; plumbing for the assignments below.
    soa/main.hpp:88-165 (helper, no code of its own) *)
Definition with_bl (l : list blk) (s : st) : st :=
  ST l (cs s) (nid s) (tag s) (acq s) (rel s) (freed s).

(** m_cur_size = n. e.g. soa/main_def.inl:1509-1533 *)
Definition with_cs (n : nat) (s : st) : st :=
  ST (bl s) n (nid s) (tag s) (acq s) (rel s) (freed s).

(** Access of slot [i]; out of range is undefined. soa/main.hpp:90-92 *)
Definition bat (i : nat) (s : st) : res blk := deref (nth_error (bl s) i).

(** positions[i]. soa/main.hpp:90 *)
Definition pos_at (i : nat) (s : st) : res nat := let* b := bat i s in Ok (bp b).
(** sizes[i]. soa/main.hpp:91 *)
Definition size_at (i : nat) (s : st) : res nat := let* b := bat i s in Ok (bs b).
(** element_blocks[i] (None = nullptr). soa/main.hpp:92 *)
Definition data_at (i : nat) (s : st) : res (option eblk) := let* b := bat i s in Ok (bd b).
(** *element_blocks[i]; a null pointer is undefined. soa/main.hpp:92 *)
Definition edata (i : nat) (s : st) : res eblk := let* d := data_at i s in deref d.

(** positions[i] = p. soa/main.hpp:90 *)
Definition set_pos (i p : nat) (s : st) : res st :=
  let* b := bat i s in Ok (with_bl (set_nth i (BK p (bs b) (bd b)) (bl s)) s).
(** sizes[i] = n. soa/main.hpp:91 *)
Definition set_size (i n : nat) (s : st) : res st :=
  let* b := bat i s in Ok (with_bl (set_nth i (BK (bp b) n (bd b)) (bl s)) s).
(** element_blocks[i] = d. soa/main.hpp:92 *)
Definition set_data (i : nat) (d : option eblk) (s : st) : res st :=
  let* b := bat i s in Ok (with_bl (set_nth i (BK (bp b) (bs b) d) (bl s)) s).

(** positions[i] += n. soa/main.hpp:90 *)
Definition pos_add (i n : nat) (s : st) : res st :=
  let* p := pos_at i s in set_pos i (p + n) s.
(** positions[i] -= n, checked. soa/main.hpp:90 *)
Definition pos_sub (i n : nat) (s : st) : res st :=
  let* p := pos_at i s in if n <=? p then set_pos i (p - n) s else Undef.
(** sizes[i] += n. soa/main.hpp:91 *)
Definition size_add (i n : nat) (s : st) : res st :=
  let* z := size_at i s in set_size i (z + n) s.
(** sizes[i] -= n, checked. soa/main.hpp:91 *)
Definition size_sub (i n : nat) (s : st) : res st :=
  let* z := size_at i s in if n <=? z then set_size i (z - n) s else Undef.

(** blocks_type::insert(index, pos, size, data), soa/main_def.inl:206-212. *)
Definition ins (i : nat) (b : blk) (s : st) : res st :=
  if i <=? nblk s then Ok (with_bl (insert_at i b (bl s)) s) else Undef.

(** blocks_type::insert(index, size), soa/main_def.inl:198-203: slots of size 0 at position 0. *)
Definition ins_n (i n : nat) (s : st) : res st :=
  if i <=? nblk s
  then Ok (with_bl (firstn i (bl s) ++ repeat (BK 0 0 None) n ++ skipn i (bl s)) s)
  else Undef.

(** blocks_type::insert(index, new_blocks), soa/main_def.inl:215-221. *)
Definition ins_l (i : nat) (l : list blk) (s : st) : res st :=
  if i <=? nblk s
  then Ok (with_bl (firstn i (bl s) ++ l ++ skipn i (bl s)) s)
  else Undef.

(** blocks_type::push_back, soa/main.hpp:145-158. *)
Definition push_blk (b : blk) (s : st) : st := with_bl (bl s ++ [b]) s.

(** blocks_type::erase(index, size), soa/main_def.inl:190-195. *)
Definition del (i n : nat) (s : st) : res st :=
  if i + n <=? nblk s
  then Ok (with_bl (firstn i (bl s) ++ skipn (i + n) (bl s)) s)
  else Undef.

(** blocks_type::calc_next_block_position, soa/main_def.inl:237-241. *)
Definition next_pos (i : nat) (s : st) : res nat :=
  let* b := bat i s in Ok (bp b + bs b).

(** blocks_type::calc_block_position, soa/main_def.inl:224-234. *)
Definition calc_pos (i : nat) (s : st) : res st :=
  match i with
  | O => set_pos O 0 s
  | S j => let* p := next_pos j s in set_pos i p s
  end.

(** blocks_type::swap(index1, index2), soa/main_def.inl:244-250. *)
Definition swap_blk (i j : nat) (s : st) : res st :=
  let* a := bat i s in
  let* b := bat j s in
  Ok (with_bl (set_nth j a (set_nth i b (bl s))) s).

(** Add to the positions from an index on. the loop soa/block_util.hpp:33-49 *)
Definition shift_up (d : nat) (l : list blk) : list blk :=
  map (fun b => BK (bp b + d) (bs b) (bd b)) l.
(** Subtract from the positions from an index on.
    the loop soa/block_util.hpp:33-49 *)
Definition shift_dn (d : nat) (l : list blk) : list blk :=
  map (fun b => BK (bp b - d) (bs b) (bd b)) l.

(** adjust_block_positions with a positive delta, soa/block_util.hpp:33-49 (the unrolled
    variants are modelled in MtvAdjust.v). *)
Definition adj_up (i d : nat) (s : st) : res st :=
  Ok (with_bl (firstn i (bl s) ++ shift_up d (skipn i (bl s))) s).
(** The same with a negative delta; going below zero is reported as [Undef].
    soa/block_util.hpp:33-49 *)
Definition adj_dn (i d : nat) (s : st) : res st :=
  if forallb (fun b => d <=? bp b) (skipn i (bl s))
  then Ok (with_bl (firstn i (bl s) ++ shift_dn d (skipn i (bl s))) s)
  else Undef.

(** ** Element blocks *)

(** element_block_acquired(data). e.g. soa/main_def.inl:426 *)
Definition ev_acq (e : eblk) (s : st) : st :=
  ST (bl s) (cs s) (nid s) (tag s) (acq s ++ [(eid e, ecat e)]) (rel s) (freed s).
(** element_block_released(data). soa/main_def.inl:647 *)
Definition ev_rel (e : eblk) (s : st) : st :=
  ST (bl s) (cs s) (nid s) (tag s) (acq s) (rel s ++ [(eid e, ecat e)]) (freed s).

(** Heap objects a list of elements of category [c] stands for.
    types.hpp:841-844, 900-903 *)
Definition own (c : nat) (l : list V) : list V := if managed c then l else [].

(** block_funcs::delete_block, types.hpp:513-516 with the destructors 841-844, 900-903:
    a managed block deletes all its elements. *)
Definition destroy (e : eblk) (s : st) : st :=
  ST (bl s) (cs s) (nid s) (tag s) (acq s) (rel s) (freed s ++ own (ecat e) (ev e)).

(** block_funcs::create_new_block(c, 0), types.hpp:508-511. *)
Definition fresh (c : nat) (s : st) : eblk * st :=
  (EB (tag s, nid s) c [],
   ST (bl s) (cs s) (S (nid s)) (tag s) (acq s) (rel s) (freed s)).

(** Update the array of a block. types.hpp:287 (m_array; helper) *)
Definition with_ev (e : eblk) (l : list V) : eblk := EB (eid e) (ecat e) l.

(** The value sequences handed to one call all have one C++ type.
    block_funcs dispatch, soa/main_def.inl:1554-1560 (helper) *)
Definition all_cat (c : nat) (l : list V) : bool := forallb (fun v => cat v =? c) l.

(** append_value / append_values, types.hpp:490-494, 625-631. *)
Definition e_append (vs : list V) (e : eblk) : res eblk :=
  if all_cat (ecat e) vs then Ok (with_ev e (ev e ++ vs)) else Undef.
(** prepend_value / prepend_values, types.hpp:502-506, 633-638. *)
Definition e_prepend (vs : list V) (e : eblk) : res eblk :=
  if all_cat (ecat e) vs then Ok (with_ev e (vs ++ ev e)) else Undef.
(** assign_values, types.hpp:640-645. *)
Definition e_assign (vs : list V) (e : eblk) : res eblk :=
  if all_cat (ecat e) vs then Ok (with_ev e vs) else Undef.
(** insert_values, types.hpp:647-652. *)
Definition e_insert (i : nat) (vs : list V) (e : eblk) : res eblk :=
  if all_cat (ecat e) vs && (i <=? length (ev e))
  then Ok (with_ev e (firstn i (ev e) ++ vs ++ skipn i (ev e))) else Undef.
(** set_value / set_values, types.hpp:475-478, 615-623. *)
Definition e_set (i : nat) (vs : list V) (e : eblk) : res eblk :=
  if all_cat (ecat e) vs && (i + length vs <=? length (ev e))
  then Ok (with_ev e (firstn i (ev e) ++ vs ++ skipn (i + length vs) (ev e))) else Undef.
(** erase_value / erase_values, types.hpp:543-553. *)
Definition e_erase (i n : nat) (e : eblk) : res eblk :=
  if i + n <=? length (ev e)
  then Ok (with_ev e (firstn i (ev e) ++ skipn (i + n) (ev e))) else Undef.
(** resize_block, types.hpp:518-527; growing (which would add default values) does not
    occur and is reported as [Undef]. *)
Definition e_resize (n : nat) (e : eblk) : res eblk :=
  if n <=? length (ev e) then Ok (with_ev e (firstn n (ev e))) else Undef.
(** get_iterator_pair, types.hpp:673-683: elements [i, i+n) of a block. *)
Definition e_slice (i n : nat) (e : eblk) : res (list V) :=
  if i + n <=? length (ev e) then Ok (firstn n (skipn i (ev e))) else Undef.
(** append_block, types.hpp:555-560. *)
Definition e_append_block (src : eblk) (e : eblk) : res eblk :=
  if ecat src =? ecat e then Ok (with_ev e (ev e ++ ev src)) else Undef.
(** append_values_from_block, types.hpp:562-570. *)
Definition e_append_from (src : eblk) (i n : nat) (e : eblk) : res eblk :=
  if ecat src =? ecat e then
    let* l := e_slice i n src in Ok (with_ev e (ev e ++ l))
  else Undef.
(** assign_values_from_block, types.hpp:572-579. *)
Definition e_assign_from (src : eblk) (i n : nat) (e : eblk) : res eblk :=
  if ecat src =? ecat e then
    let* l := e_slice i n src in Ok (with_ev e l)
  else Undef.
(** prepend_values_from_block, types.hpp:581-589. *)
Definition e_prepend_from (src : eblk) (i n : nat) (e : eblk) : res eblk :=
  if ecat src =? ecat e then
    let* l := e_slice i n src in Ok (with_ev e (l ++ ev e))
  else Undef.

(** Apply a block function to the block in slot [i].
    e.g. soa/main_def.inl:4311-4315 (helper) *)
Definition on (i : nat) (f : eblk -> res eblk) (s : st) : res st :=
  let* e := edata i s in
  let* e' := f e in
  set_data i (Some e') s.

(** overwrite_values, types.hpp:804-807 (no effect), 865-871, 924-930 (managed: delete
    the objects at [i, i+n)). *)
Definition overwrite_e (e : eblk) (i n : nat) (s : st) : res st :=
  if (i + n <=? length (ev e)) || negb (managed (ecat e)) then
    Ok (ST (bl s) (cs s) (nid s) (tag s) (acq s) (rel s)
           (freed s ++ own (ecat e) (firstn n (skipn i (ev e)))))
  else Undef.
(** overwrite_values on the block in slot [b].
    types.hpp:865-871, e.g. soa/main_def.inl:4383 *)
Definition overwrite (b i n : nat) (s : st) : res st :=
  let* e := edata b s in overwrite_e e i n s.

(** Category of a slot's content; None is element_type_empty. types.hpp:766-769 *)
Definition dcat (d : option eblk) : option nat := option_map ecat d.
(** Comparison of element_t values. e.g. soa/main_def.inl:4782-4807 *)
Definition ceqb (a b : option nat) : bool :=
  match a, b with
  | None, None => true
  | Some x, Some y => x =? y
  | _, _ => false
  end.

(** delete_element_block, soa/main_def.inl:640-650. *)
Definition delete_element_block (i : nat) (s : st) : res st :=
  let* d := data_at i s in
  match d with
  | None => Ok s
  | Some e => set_data i None (destroy e (ev_rel e s))
  end.

(** delete_element_blocks(start, end), soa/main_def.inl:653-657; [n] = end - start. *)
Fixpoint delete_element_blocks (i n : nat) (s : st) : res st :=
  match n with
  | O => Ok s
  | S n' => let* s := delete_element_block i s in delete_element_blocks (S i) n' s
  end.

(** is_previous_block_of_type, soa/main_def.inl:4782-4793. *)
Definition is_prev (bi : nat) (c : option nat) (s : st) : res bool :=
  match bi with
  | O => Ok false
  | S j => let* d := data_at j s in Ok (ceqb c (dcat d))
  end.

(** is_next_block_of_type, soa/main_def.inl:4796-4807. *)
Definition is_next (bi : nat) (c : option nat) (s : st) : res bool :=
  if S bi =? nblk s then Ok false
  else let* d := data_at (S bi) s in Ok (ceqb c (dcat d)).

(** merge_with_next_block, soa/main_def.inl:4658-4698. *)
Definition merge_next (bi : nat) (s : st) : res (st * bool) :=
  if nblk s <=? S bi then Ok (s, false)
  else
    let* d := data_at bi s in
    let* d' := data_at (S bi) s in
    match d, d' with
    | None, Some _ => Ok (s, false)
    | None, None =>
        let* z := size_at (S bi) s in
        let* s := size_add bi z s in
        let* s := del (S bi) 1 s in
        Ok (s, true)
    | Some _, None => Ok (s, false)
    | Some e, Some e' =>
        if negb (ecat e =? ecat e') then Ok (s, false)
        else
          let* s := on bi (e_append_block e') s in
          let* s := on (S bi) (e_resize 0) s in
          let* z := size_at (S bi) s in
          let* s := size_add bi z s in
          let* s := delete_element_block (S bi) s in
          let* s := del (S bi) 1 s in
          Ok (s, true)
    end.

(** merge_with_adjacent_blocks, soa/main_def.inl:4568-4655. *)
Definition merge_adj (bi : nat) (s : st) : res (st * nat) :=
  match bi with
  | O => let* (s, _) := merge_next bi s in Ok (s, 0)
  | S bj =>
    let* size_prev := size_at bj s in
    let* prev := data_at bj s in
    let* cur := data_at bi s in
    let has_next := S bi <? nblk s in
    let* next := (if has_next then data_at (S bi) s else Ok None) in
    match prev with
    | Some ep =>
        if (match cur with None => true | Some e => negb (ecat ep =? ecat e) end)
        then let* (s, _) := merge_next bi s in Ok (s, 0)
        else
          match next with
          | Some en =>
              if ecat ep =? ecat en then
                let* z1 := size_at bi s in
                let* z2 := size_at (S bi) s in
                let* s := size_add bj (z1 + z2) s in
                let* e := edata bi s in
                let* s := on bj (e_append_block e) s in
                let* s := on bj (e_append_block en) s in
                let* s := on bi (e_resize 0) s in
                let* s := on (S bi) (e_resize 0) s in
                let* s := delete_element_block bi s in
                let* s := delete_element_block (S bi) s in
                let* s := del bi 2 s in
                Ok (s, size_prev)
              else
                let* (s, _) := merge_next bj s in Ok (s, size_prev)
          | None => let* (s, _) := merge_next bj s in Ok (s, size_prev)
          end
    | None =>
        match cur with
        | Some _ => let* (s, _) := merge_next bi s in Ok (s, 0)
        | None =>
            if has_next && (match next with None => true | Some _ => false end) then
              let* z1 := size_at bi s in
              let* z2 := size_at (S bi) s in
              let* s := size_add bj (z1 + z2) s in
              let* s := del bi 2 s in
              Ok (s, size_prev)
            else
              let* (s, _) := merge_next bj s in Ok (s, size_prev)
        end
    end
  end.

(** set_new_block_to_middle, soa/main_def.inl:4701-4779. *)
Definition to_middle (bi offset n : nat) (ow : bool) (s : st) : res (st * nat) :=
  let* z := size_at bi s in
  let lower := z - offset - n in
  let* s := ins_n (S bi) 2 s in
  let* s := set_size (S bi) n s in
  let* s := set_size (S (S bi)) lower s in
  let* d := data_at bi s in
  let* s :=
    match d with
    | Some e =>
        let lower_start := offset + n in
        let (e2, s) := fresh (ecat e) s in
        let* s := set_data (S (S bi)) (Some e2) s in
        let s := ev_acq e2 s in
        if lower <? offset then
          let* s := on (S (S bi)) (e_assign_from e lower_start lower) s in
          let* s := (if ow then overwrite bi offset n s else Ok s) in
          let* s := on bi (e_resize offset) s in
          let* s := set_size bi offset s in
          set_size (S (S bi)) lower s
        else
          let* s := on (S (S bi)) (e_assign_from e 0 offset) s in
          let* s := set_size (S (S bi)) offset s in
          let* s := (if ow then overwrite bi offset n s else Ok s) in
          let* s := on bi (e_erase 0 lower_start) s in
          let* s := set_size bi lower s in
          let* s := set_size (S (S bi)) offset s in
          let* p := pos_at bi s in
          let* s := swap_blk bi (S (S bi)) s in
          set_pos bi p s
    | None => set_size bi offset s
    end in
  let* s := calc_pos (S bi) s in
  let* s := calc_pos (S (S bi)) s in
  Ok (s, S bi).

(** ** Locating a block *)

(** std::lower_bound over positions (standard library, modelled by its contract:
    index of the first position that is not less than [row]); [l] is the array from
    the start index on. soa/main_def.inl:4215 *)
Fixpoint lower_bound (row : nat) (l : list blk) : nat :=
  match l with
  | [] => 0
  | b :: t => if bp b <? row then S (lower_bound row t) else 0
  end.

(** get_block_position(row, start_block_index), soa/main_def.inl:4206-4228. *)
Definition block_pos (row start : nat) (s : st) : res nat :=
  if (cs s <=? row) || (nblk s <=? start) then Ok (nblk s)
  else
    let k := lower_bound row (skipn start (bl s)) in
    let i := start + k in
    match nth_error (bl s) i with
    | Some b =>
        if bp b =? row then Ok i
        else match i with O => Undef | S j => Ok j end
    | None => match i with O => Undef | S j => Ok j end
    end.

(** The loop of get_block_position with a hint, soa/main_def.inl:4246-4256. *)
Fixpoint walk_back (i row : nat) (s : st) : res (option nat) :=
  match i with
  | O => Ok None
  | S j =>
      let* p := pos_at j s in
      if p <=? row then Ok (Some j) else walk_back j row s
  end.

(** get_block_position(pos_data, row), soa/main_def.inl:4231-4263.  A hint is
    [Some index] when its parent is this container, [None] otherwise. *)
Definition block_pos_hint (hint : option nat) (row : nat) (s : st) : res nat :=
  let bi := match hint with
            | Some i => if i <? nblk s then i else 0
            | None => 0
            end in
  let* start_row := pos_at bi s in
  if row <? start_row then
    let* r := (if Nat.div2 start_row <? row then walk_back bi row s else Ok None) in
    match r with
    | Some i => Ok i
    | None => block_pos row 0 s
    end
  else block_pos row bi s.

(** The two ways of locating the start block of a call: without hint (soa/main_def.inl:906-909
    and alike) or with one (soa/main_def.inl:949-952 and alike). *)
Definition locate (hint : option (option nat)) (row : nat) (s : st) : res nat :=
  let* bi := match hint with
             | None => block_pos row 0 s
             | Some h => block_pos_hint h row s
             end in
  if bi =? nblk s then Throw E_out_of_range else Ok bi.

(** ** Reading *)

(** get / get_impl, soa/main_def.inl:661-681, 3822-3837: the element or empty. *)
Definition get (pos : nat) (s : st) : res (option V) :=
  let* bi := locate None pos s in
  let* d := data_at bi s in
  match d with
  | None => Ok None
  | Some e =>
      let* p := pos_at bi s in
      let* v := deref (nth_error (ev e) (pos - p)) in
      Ok (Some v)
  end.

(** get_type, soa/main_def.inl:1323-1337. *)
Definition get_type (pos : nat) (s : st) : res (option nat) :=
  let* bi := locate None pos s in
  let* d := data_at bi s in Ok (dcat d).

(** is_empty, soa/main_def.inl:1340-1350. *)
Definition is_empty (pos : nat) (s : st) : res bool :=
  let* bi := locate None pos s in
  let* d := data_at bi s in
  Ok (match d with None => true | Some _ => false end).

(** position(pos), soa/main_def.inl:684-775: block index and offset. *)
Definition position (hint : option (option nat)) (pos : nat) (s : st) : res (nat * nat) :=
  if pos =? cs s then Ok (nblk s, 0)
  else
    let* bi := locate hint pos s in
    let* p := pos_at bi s in
    Ok (bi, pos - p).

(** size, soa/main_def.inl:3797-3802. *)
Definition size (s : st) : nat := cs s.

(** ** Setting one element *)

(** create_new_block_with_new_cell, soa/main_def.inl:4267-4285. *)
Definition new_cell (bi : nat) (v : V) (s : st) : res st :=
  let* d := data_at bi s in
  let s := match d with Some e => destroy e (ev_rel e s) | None => s end in
  let (e, s) := fresh (cat v) s in
  let* s := set_data bi (Some e) s in
  let s := ev_acq e s in
  on bi (e_append [v]) s.

(** append_cell_to_block, soa/main_def.inl:4311-4315. *)
Definition append_cell (bi : nat) (v : V) (s : st) : res st :=
  let* s := size_add bi 1 s in
  on bi (e_append [v]) s.

(** set_cell_to_middle_of_block, soa/main_def.inl:4379-4387. *)
Definition set_cell_middle (bi k : nat) (v : V) (s : st) : res (st * nat) :=
  let* (s, bi) := to_middle bi k 1 true s in
  let* s := new_cell bi v s in
  Ok (s, bi).

(** set_cell_to_top_of_data_block, soa/main_def.inl:4391-4408. *)
Definition set_cell_top (bi : nat) (v : V) (s : st) : res st :=
  let* s := size_sub bi 1 s in
  let* p := pos_at bi s in
  let* s := pos_add bi 1 s in
  let* d := data_at bi s in
  let* s := match d with
            | Some _ =>
                let* s := overwrite bi 0 1 s in on bi (e_erase 0 1) s
            | None => Ok s
            end in
  let* s := ins bi (BK p 1 None) s in
  new_cell bi v s.

(** set_cell_to_bottom_of_data_block, soa/main_def.inl:4412-4429. *)
Definition set_cell_bottom (bi : nat) (v : V) (s : st) : res st :=
  let* d := data_at bi s in
  let* z := size_at bi s in
  let* s := match d with
            | Some _ =>
                let* s := overwrite bi (z - 1) 1 s in on bi (e_erase (z - 1) 1) s
            | None => Ok s
            end in
  let* s := size_sub bi 1 s in
  let* s := ins (S bi) (BK 0 1 None) s in
  let* s := calc_pos (S bi) s in
  new_cell (S bi) v s.

(** set_cell_to_empty_block, topmost block, soa/main_def.inl:3287-3415. *)
Definition set_cell_empty_top (k : nat) (v : V) (s : st) : res (st * nat) :=
  let c := Some (cat v) in
  if nblk s =? 1 then
    if cs s =? 1 then
      let* s := new_cell 0 v s in Ok (s, 0)
    else if k =? 0 then
      let* s := size_sub 0 1 s in
      let* s := ins 0 (BK 0 1 None) s in
      let* s := new_cell 0 v s in
      let* s := set_pos 1 1 s in
      Ok (s, 0)
    else
      let* z := size_at 0 s in
      if k =? z - 1 then
        let* s := size_sub 0 1 s in
        let s := push_blk (BK (z - 1) 1 None) s in
        let* s := new_cell 1 v s in
        Ok (s, nblk s - 1)
      else set_cell_middle 0 k v s
  else if k =? 0 then
    let* z := size_at 0 s in
    let* s :=
      (if z =? 1 then
         let* nx := is_next 0 c s in
         if nx then
           let* s := delete_element_block 0 s in
           let* s := del 0 1 s in
           let* s := size_add 0 1 s in
           let* s := pos_sub 0 1 s in
           on 0 (e_prepend [v]) s
         else new_cell 0 v s
       else
         let* s := size_sub 0 1 s in
         let* s := set_pos 0 1 s in
         let* s := ins 0 (BK 0 1 None) s in
         new_cell 0 v s) in
    Ok (s, 0)
  else
    let* z := size_at 0 s in
    if k =? z - 1 then
      let* nx := is_next 0 c s in
      let* s :=
        (if nx then
           let* s := size_sub 0 1 s in
           let* s := size_add 1 1 s in
           let* s := pos_sub 1 1 s in
           on 1 (e_prepend [v]) s
         else
           let* s := size_sub 0 1 s in
           let* s := ins_n 1 1 s in
           let* s := calc_pos 1 s in
           let* s := set_size 1 1 s in
           new_cell 1 v s) in
      Ok (s, 1)
    else set_cell_middle 0 k v s.

(** set_cell_to_empty_block, a block exists above, top of the block, previous block
    of the same type: soa/main_def.inl:3426-3524. *)
Definition set_cell_empty_join (bj : nat) (v : V) (s : st) : res (st * nat) :=
  let bi := S bj in
  let* z := size_at bi s in
  let* s :=
    (if z =? 1 then
       if S bi =? nblk s then
         let* s := delete_element_block bi s in
         let* s := del bi 1 s in
         append_cell bj v s
       else
         let* nx := is_next bi (Some (cat v)) s in
         if nx then
           let* zp := size_at bj s in
           let* zn := size_at (S bi) s in
           let* prev := edata bj s in
           let* next := edata (S bi) s in
           if zp <? zn then
             let* p := pos_at bj s in
             let* s := size_add (S bi) 1 s in
             let* s := on (S bi) (e_prepend [v]) s in
             let* s := on (S bi) (e_prepend_from prev 0 zp) s in
             let* s := size_add (S bi) zp s in
             let* s := set_pos (S bi) p s in
             let* s := on bj (e_resize 0) s in
             let* prev := edata bj s in
             let s := destroy prev (ev_rel prev s) in
             del bj 2 s
           else
             let* s := size_add bj (1 + zn) s in
             let* s := on bj (e_append [v]) s in
             let* s := on bj (e_append_block next) s in
             let* s := on (S bi) (e_resize 0) s in
             let* next := edata (S bi) s in
             let s := destroy next (ev_rel next s) in
             del bi 2 s
         else
           let* s := delete_element_block bi s in
           let* s := del bi 1 s in
           append_cell bj v s
     else
       let* s := size_sub bi 1 s in
       let* s := pos_add bi 1 s in
       append_cell bj v s) in
  Ok (s, bj).

(** set_cell_to_empty_block, soa/main_def.inl:3282-3615. *)
Definition set_cell_empty (bi k : nat) (v : V) (s : st) : res (st * nat) :=
  match bi with
  | O => set_cell_empty_top k v s
  | S bj =>
    let c := Some (cat v) in
    let* z := size_at bi s in
    if k =? 0 then
      let* ep := edata bj s in
      if ecat ep =? cat v then set_cell_empty_join bj v s
      else
        let* s :=
          (if z =? 1 then
             if S bi =? nblk s then new_cell bi v s
             else
               let* nx := is_next bi c s in
               if nx then
                 let* s := size_add (S bi) 1 s in
                 let* s := pos_sub (S bi) 1 s in
                 let* s := on (S bi) (e_prepend [v]) s in
                 let* s := delete_element_block bi s in
                 del bi 1 s
               else new_cell bi v s
           else
             let* p := pos_at bi s in
             let* s := set_size bi 1 s in
             let* s := new_cell bi v s in
             ins (S bi) (BK (p + 1) (z - 1) None) s) in
        Ok (s, bi)
    else if k =? z - 1 then
      if S bi =? nblk s then
        let* s := size_sub bi 1 s in
        let s := push_blk (BK 0 1 None) s in
        let* s := calc_pos (S bi) s in
        let* s := new_cell (S bi) v s in
        Ok (s, nblk s - 1)
      else
        let* nx := is_next bi c s in
        let* s :=
          (if nx then
             let* s := size_sub bi 1 s in
             let* s := size_add (S bi) 1 s in
             let* s := pos_sub (S bi) 1 s in
             on (S bi) (e_prepend [v]) s
           else
             let* s := size_sub bi 1 s in
             let* s := ins (S bi) (BK 0 1 None) s in
             let* s := calc_pos (S bi) s in
             new_cell (S bi) v s) in
        Ok (s, S bi)
    else set_cell_middle bi k v s
  end.

(** "Remove this block, prepend the cell to the next block": the shared ending of
    soa/main_def.inl:3646-3651 and 3782-3788 (there the deletion comes last). *)
Definition join_next (bi : nat) (v : V) (s : st) : res st :=
  let* s := size_add (S bi) 1 s in
  let* s := pos_sub (S bi) 1 s in
  let* s := on (S bi) (e_prepend [v]) s in
  let* s := delete_element_block bi s in
  del bi 1 s.

(** "Append to the previous block, remove this one": soa/main_def.inl:3670-3673, 3724-3727 and
    3773-3776. *)
Definition join_prev (bj : nat) (v : V) (s : st) : res st :=
  let* s := size_add bj 1 s in
  let* s := on bj (e_append [v]) s in
  let* s := delete_element_block (S bj) s in
  del (S bj) 1 s.

(** set_cell_to_non_empty_block_of_size_one, soa/main_def.inl:3619-3794. *)
Definition set_cell_size_one (bi : nat) (v : V) (s : st) : res (st * nat) :=
  let c := Some (cat v) in
  match bi with
  | O =>
      if S bi =? nblk s then
        let* s := new_cell bi v s in Ok (s, 0)
      else
        let* nx := is_next bi c s in
        if negb nx then let* s := new_cell bi v s in Ok (s, 0)
        else let* s := join_next bi v s in Ok (s, 0)
  | S bj =>
      if S bi =? nblk s then
        let* prev := data_at bj s in
        let* s := (if ceqb (dcat prev) c then join_prev bj v s else new_cell bi v s) in
        Ok (s, nblk s - 1)
      else
        let* prev := data_at bj s in
        let* next := data_at (S bi) s in
        match prev, next with
        | None, None => let* s := new_cell bi v s in Ok (s, bi)
        | None, Some en =>
            if ecat en =? cat v then
              let* s := delete_element_block bi s in
              let* s := del bi 1 s in
              let* s := size_add bi 1 s in
              let* s := pos_sub bi 1 s in
              let* s := on bi (e_prepend [v]) s in
              Ok (s, bi)
            else let* s := new_cell bi v s in Ok (s, bi)
        | Some ep, None =>
            if ecat ep =? cat v then let* s := join_prev bj v s in Ok (s, bj)
            else let* s := new_cell bi v s in Ok (s, bi)
        | Some ep, Some en =>
            if ecat ep =? ecat en then
              if ecat ep =? cat v then
                let* zn := size_at (S bi) s in
                let* s := size_add bj (1 + zn) s in
                let* s := on bj (e_append [v]) s in
                let* s := on bj (e_append_block en) s in
                let* s := on (S bi) (e_resize 0) s in
                let* s := delete_element_block bi s in
                let* s := delete_element_block (S bi) s in
                let* s := del bi 2 s in
                Ok (s, bj)
              else let* s := new_cell bi v s in Ok (s, bi)
            else if ecat ep =? cat v then
              let* s := join_prev bj v s in Ok (s, bj)
            else if ecat en =? cat v then
              let* s := join_next bi v s in Ok (s, bi)
            else let* s := new_cell bi v s in Ok (s, bi)
        end
  end.

(** set_impl, the value goes to the last row of a block of another type and the next
    block has the value's type: soa/main_def.inl:1649-1656, 1679-1686. *)
Definition set_join_next (bi : nat) (v : V) (s : st) : res (st * nat) :=
  let* z := size_at bi s in
  let* s := overwrite bi (z - 1) 1 s in
  let* s := on bi (e_erase (z - 1) 1) s in
  let* s := size_sub bi 1 s in
  let* s := on (S bi) (e_prepend [v]) s in
  let* s := size_add (S bi) 1 s in
  let* s := pos_sub (S bi) 1 s in
  Ok (s, S bi).

(** set_impl, soa/main_def.inl:1554-1687. *)
Definition set_impl (pos bi : nat) (v : V) (s : st) : res (st * nat) :=
  let* start := pos_at bi s in
  let* z := size_at bi s in
  let* d := data_at bi s in
  let k := pos - start in
  match d with
  | None => set_cell_empty bi k v s
  | Some e =>
    if ecat e =? cat v then
      let* s := overwrite bi k 1 s in
      let* s := on bi (e_set k [v]) s in
      Ok (s, bi)
    else if pos =? start then
      if z =? 1 then set_cell_size_one bi v s
      else
        let* pv := is_prev bi (Some (cat v)) s in
        if pv then
          let* s := size_sub bi 1 s in
          let* s := pos_add bi 1 s in
          let* s := overwrite bi 0 1 s in
          let* s := on bi (e_erase 0 1) s in
          let* s := size_add (pred bi) 1 s in
          let* s := on (pred bi) (e_append [v]) s in
          Ok (s, pred bi)
        else
          let* s := set_cell_top bi v s in Ok (s, bi)
    else if pos <? start + z - 1 then set_cell_middle bi k v s
    else if bi =? 0 then
      if nblk s =? 1 then
        let* s := set_cell_bottom 0 v s in Ok (s, nblk s - 1)
      else
        let* nx := is_next bi (Some (cat v)) s in
        if negb nx then let* s := set_cell_bottom 0 v s in Ok (s, 1)
        else set_join_next bi v s
    else if bi =? nblk s - 1 then
      let* s := set_cell_bottom bi v s in Ok (s, nblk s - 1)
    else
      let* nx := is_next bi (Some (cat v)) s in
      if negb nx then let* s := set_cell_bottom bi v s in Ok (s, S bi)
      else set_join_next bi v s
  end.

(** set(pos, value) and set(pos_hint, pos, value), soa/main_def.inl:900-979. *)
Definition set (hint : option (option nat)) (pos : nat) (v : V) (s : st) : res (st * nat) :=
  let* bi := locate hint pos s in set_impl pos bi v s.

(** ** Emptying and releasing *)

(** set_whole_block_empty, soa/main_def.inl:2784-2834. *)
Definition set_whole_block_empty (bi : nat) (ow : bool) (s : st) : res (st * nat) :=
  let* s := (if ow then Ok s else on bi (e_resize 0) s) in
  let* s := delete_element_block bi s in
  let* pv := is_prev bi None s in
  let* nx := is_next bi None s in
  if pv then
    if nx then
      let* z := size_at bi s in
      let* z' := size_at (S bi) s in
      let* s := size_add (pred bi) (z + z') s in
      let* s := del bi 2 s in
      Ok (s, pred bi)
    else
      let* z := size_at bi s in
      let* s := size_add (pred bi) z s in
      let* s := del bi 1 s in
      Ok (s, pred bi)
  else if nx then
    let* z := size_at (S bi) s in
    let* s := size_add bi z s in
    let* s := del (S bi) 1 s in
    Ok (s, bi)
  else Ok (s, bi).

(** set_empty_in_single_block, soa/main_def.inl:2186-2266. *)
Definition set_empty_single (a b bi : nat) (ow : bool) (s : st) : res (st * nat) :=
  let* d := data_at bi s in
  match d with
  | None => Ok (s, bi)
  | Some _ =>
    let* start := pos_at bi s in
    let* z := size_at bi s in
    let last := start + z - 1 in
    let n := b - a + 1 in
    if a =? start then
      if b =? last then set_whole_block_empty bi ow s
      else
        let* s := (if ow then overwrite bi 0 n s else Ok s) in
        let* s := on bi (e_erase 0 n) s in
        let* s := size_sub bi n s in
        let* pv := is_prev bi None s in
        if pv then
          let* s := size_add (pred bi) n s in
          let* s := pos_add bi n s in
          Ok (s, pred bi)
        else
          let* p := pos_at bi s in
          let* s := pos_add bi n s in
          let* s := ins bi (BK p n None) s in
          Ok (s, bi)
    else if b =? last then
      let off := a - start in
      let* s := (if ow then overwrite bi off n s else Ok s) in
      let* s := on bi (e_erase off n) s in
      let* s := size_sub bi n s in
      let* nx := is_next bi None s in
      if nx then
        let* s := size_add (S bi) n s in
        let* s := set_pos (S bi) a s in
        Ok (s, S bi)
      else
        let* s := ins (S bi) (BK a n None) s in
        Ok (s, S bi)
    else
      let* (s, _) := to_middle bi (a - start) n ow s in
      Ok (s, S bi)
  end.

(** The removal loop of set_empty_in_multi_blocks, soa/main_def.inl:2370-2377. *)
Fixpoint drop_blocks (i n : nat) (ow : bool) (s : st) : res st :=
  match n with
  | O => Ok s
  | S n' =>
      let* d := data_at i s in
      let* s := match d with
                | Some _ => if ow then Ok s else on i (e_resize 0) s
                | None => Ok s
                end in
      let* s := delete_element_block i s in
      drop_blocks (S i) n' ow s
  end.

(** set_empty_in_multi_blocks, soa/main_def.inl:2269-2396. *)
Definition set_empty_multi (a b bi1 bi2 : nat) (ow : bool) (s : st) : res (st * nat) :=
  let* start1 := pos_at bi1 s in
  let* start2 := pos_at bi2 s in
  (* lower part of the first block, 2276-2320; new start row and block 1 index *)
  let* d1 := data_at bi1 s in
  let* (s, a, bi1) :=
    match d1 with
    | Some _ =>
        if start1 =? a then
          let* pv := is_prev bi1 None s in
          if pv then
            let* z := size_at (pred bi1) s in
            Ok (s, a - z, pred bi1)
          else
            let* s := (if ow then Ok s else on bi1 (e_resize 0) s) in
            let* s := delete_element_block bi1 s in
            Ok (s, a, bi1)
        else
          let n := a - start1 in
          let* z := size_at bi1 s in
          let* s := (if ow then overwrite bi1 n (z - n) s else Ok s) in
          let* s := on bi1 (e_resize n) s in
          let* s := set_size bi1 n s in
          Ok (s, a, bi1)
    | None => Ok (s, start1, bi1)
    end in
  (* upper part of the last block, 2322-2364 *)
  let* d2 := data_at bi2 s in
  let* z2 := size_at bi2 s in
  let last := start2 + z2 - 1 in
  let* (s, b, erase_end) :=
    match d2 with
    | Some _ =>
        if last =? b then
          let* nx := is_next bi2 None s in
          if nx then
            let* z := size_at (S bi2) s in
            Ok (s, b + z, S (S bi2))
          else Ok (s, b, S bi2)
        else
          let n := b - start2 + 1 in
          let* s := (if ow then overwrite bi2 0 n s else Ok s) in
          let* s := on bi2 (e_erase 0 n) s in
          let* s := size_sub bi2 n s in
          let* s := set_pos bi2 (start2 + n) s in
          Ok (s, b, bi2)
    | None => Ok (s, last, S bi2)
    end in
  (* blocks in between, 2366-2381 *)
  let* s :=
    (if 1 <? erase_end - bi1 then
       let n := erase_end - bi1 - 1 in
       let* s := drop_blocks (S bi1) n ow s in
       del (S bi1) n s
     else Ok s) in
  let* d := data_at bi1 s in
  let n := b - a + 1 in
  match d with
  | Some _ =>
      let* s := ins (S bi1) (BK a n None) s in
      Ok (s, S bi1)
  | None =>
      let* s := set_size bi1 n s in
      let* s := set_pos bi1 a s in
      Ok (s, bi1)
  end.

(** set_empty_impl, soa/main_def.inl:2143-2183. *)
Definition set_empty_impl (a b bi1 : nat) (ow : bool) (s : st) : res (st * nat) :=
  if b <? a then Throw E_out_of_range
  else
    let* bi2 := block_pos b bi1 s in
    if bi2 =? nblk s then Throw E_out_of_range
    else if bi1 =? bi2 then set_empty_single a b bi1 ow s
    else set_empty_multi a b bi1 bi2 ow s.

(** set_empty, soa/main_def.inl:1353-1383. *)
Definition set_empty (hint : option (option nat)) (a b : nat) (s : st) : res (st * nat) :=
  let* bi1 := locate hint a s in set_empty_impl a b bi1 true s.

(** release_range, soa/main_def.inl:4023-4061 (container not shared). *)
Definition release_range (hint : option (option nat)) (a b : nat) (s : st) : res (st * nat) :=
  let* bi1 := locate hint a s in set_empty_impl a b bi1 false s.

(** release(pos), release(pos, value), release(pos_hint, pos, value) with
    release_impl, soa/main_def.inl:1691-1711, 3841-3973 (container not shared). *)
Definition release (hint : option (option nat)) (pos : nat) (s : st)
  : res (st * nat * option V) :=
  let* bi := locate hint pos s in
  let* d := data_at bi s in
  match d with
  | None => Ok (s, bi, None)
  | Some e =>
      let* start := pos_at bi s in
      let* v := deref (nth_error (ev e) (pos - start)) in
      let* (s, bi) := set_empty_single pos pos bi false s in
      Ok (s, bi, Some v)
  end.

(** release() of the whole container, soa/main_def.inl:3976-4020 (container not shared). *)
Definition release_all (s : st) : st :=
  let bs := flat_map (fun b => match bd b with
                               | Some e => [(eid e, ecat e)] | None => [] end) (bl s) in
  ST [] 0 (nid s) (tag s) (acq s) (rel s ++ bs) (freed s).

(** clear, soa/main_def.inl:1509-1533 (container not shared). *)
Definition clear (s : st) : res st :=
  let* s := delete_element_blocks 0 (nblk s) s in
  Ok (with_cs 0 (with_bl [] s)).

(** ** Erasing *)

(** erase_in_single_block, soa/main_def.inl:2497-2583. *)
Definition erase_single (a b bi : nat) (s : st) : res st :=
  let* d := data_at bi s in
  let n := b - a + 1 in
  let* s :=
    match d with
    | Some _ =>
        let* p := pos_at bi s in
        let off := a - p in
        let* s := overwrite bi off n s in
        on bi (e_erase off n) s
    | None => Ok s
    end in
  let* s := size_sub bi n s in
  let s := with_cs (cs s - n) s in
  let* z := size_at bi s in
  if negb (z =? 0) then adj_dn (S bi) n s
  else
    let* s := delete_element_block bi s in
    let* s := del bi 1 s in
    match bi with
    | O => adj_dn bi n s
    | S bj =>
      if nblk s <=? bi then Ok s
      else
        let* prev := data_at bj s in
        let* next := data_at bi s in
        match prev, next with
        | Some _, None => adj_dn bi n s
        | Some ep, Some en =>
            let* s :=
              (if ecat ep =? ecat en then
                 let* s := on bj (e_append_block en) s in
                 let* z := size_at bi s in
                 let* s := size_add bj z s in
                 let* s := on bi (e_resize 0) s in
                 let* s := delete_element_block bi s in
                 del bi 1 s
               else Ok s) in
            adj_dn bi n s
        | None, Some _ => adj_dn bi n s
        | None, None =>
            let* z := size_at bi s in
            let* s := size_add bj z s in
            let* s := delete_element_block bi s in
            let* s := del bi 1 s in
            adj_dn bi n s
        end
    end.

(** erase_impl when the range ends in a later block, soa/main_def.inl:2412-2493. *)
Definition erase_multi (a b b1 b2 : nat) (s : st) : res st :=
  let* start1 := pos_at b1 s in
  let* start2 := pos_at b2 s in
  let* (s, ie_begin) :=
    (if start1 =? a then Ok (s, b1)
     else
       let* d := data_at b1 s in
       let n := a - start1 in
       let* s :=
         match d with
         | Some _ =>
             let* z := size_at b1 s in
             let* s := overwrite b1 n (z - n) s in
             on b1 (e_resize n) s
         | None => Ok s
         end in
       let* s := set_size b1 n s in
       Ok (s, S b1)) in
  let* z2 := size_at b2 s in
  let last := start2 + z2 - 1 in
  let* (s, ie_end, adj) :=
    (if last =? b then Ok (s, S b2, 0)
     else
       let n := b - start2 + 1 in
       let* s := size_sub b2 n s in
       let* s := set_pos b2 a s in
       let* d := data_at b2 s in
       let* s :=
         match d with
         | Some _ =>
             let* s := overwrite b2 0 n s in on b2 (e_erase 0 n) s
         | None => Ok s
         end in
       Ok (s, b2, 1)) in
  let bp1 := pred ie_begin in
  let* s := delete_element_blocks ie_begin (ie_end - ie_begin) s in
  let* s := del ie_begin (ie_end - ie_begin) s in
  let delta := b - a + 1 in
  let s := with_cs (cs s - delta) s in
  if nblk s =? 0 then Ok s
  else
    let* s := adj_dn (ie_begin + adj) delta s in
    let* (s, _) := merge_next bp1 s in
    Ok s.

(** erase_impl, soa/main_def.inl:2399-2494. *)
Definition erase_impl (a b : nat) (s : st) : res st :=
  let* b1 := block_pos a 0 s in
  if b1 =? nblk s then Throw E_out_of_range
  else
  let* b2 := block_pos b b1 s in
  if b2 =? nblk s then Throw E_out_of_range
  else if b1 =? b2 then erase_single a b b1 s
  else erase_multi a b b1 b2 s.

(** erase, soa/main_def.inl:1386-1419. *)
Definition erase (a b : nat) (s : st) : res st :=
  if b <? a then Throw E_out_of_range else erase_impl a b s.

(** ** Inserting *)

(** insert_empty_impl, soa/main_def.inl:2586-2679. *)
Definition insert_empty_impl (pos bi len : nat) (s : st) : res (st * nat) :=
  let* d := data_at bi s in
  match d with
  | None =>
      let* s := size_add bi len s in
      let s := with_cs (cs s + len) s in
      let* s := adj_up (S bi) len s in
      Ok (s, bi)
  | Some e =>
    let* start := pos_at bi s in
    if start =? pos then
      let* pv := is_prev bi None s in
      if pv then
        let* s := size_add (pred bi) len s in
        let s := with_cs (cs s + len) s in
        let* s := adj_up bi len s in
        Ok (s, pred bi)
      else
        let* s := ins bi (BK start len None) s in
        let s := with_cs (cs s + len) s in
        let* s := adj_up (S bi) len s in
        Ok (s, bi)
    else
      let zp := pos - start in
      let* z := size_at bi s in
      let zn := z - zp in
      let* s := ins_n (S bi) 2 s in
      let* s := set_size (S bi) len s in
      let* s := set_size (S (S bi)) zn s in
      let (e2, s) := fresh (ecat e) s in
      let* s := set_data (S (S bi)) (Some e2) s in
      let s := ev_acq e2 s in
      let* s :=
        (if zn <? zp then
           let* s := on (S (S bi)) (e_assign_from e zp zn) s in
           let* s := on bi (e_resize zp) s in
           set_size bi zp s
         else
           let* s := on (S (S bi)) (e_assign_from e 0 zp) s in
           let* s := set_size (S (S bi)) zp s in
           let* s := on bi (e_erase 0 zp) s in
           let* s := set_size bi zn s in
           let* p := pos_at bi s in
           let* s := swap_blk bi (S (S bi)) s in
           set_pos bi p s) in
      let s := with_cs (cs s + len) s in
      let* s := calc_pos (S bi) s in
      let* s := calc_pos (S (S bi)) s in
      let* s := adj_up (S (S (S bi))) len s in
      Ok (s, S bi)
  end.

(** insert_empty, soa/main_def.inl:1422-1506; a zero length returns end(). *)
Definition insert_empty (hint : option (option nat)) (pos len : nat) (s : st)
  : res (st * nat) :=
  if len =? 0 then Ok (s, nblk s)
  else let* bi := locate hint pos s in insert_empty_impl pos bi len s.

(** insert_cells_to_middle, soa/main_def.inl:4334-4375. *)
Definition insert_cells_to_middle (row bi : nat) (c : nat) (vs : list V) (s : st) : res st :=
  let* start := pos_at bi s in
  let len := length vs in
  let* d := data_at bi s in
  let n1 := row - start in
  let* z := size_at bi s in
  let n2 := z - n1 in
  let* s := ins_n (S bi) 2 s in
  let* s := set_size bi n1 s in
  let* s := set_size (S bi) len s in
  let* s := set_size (S (S bi)) n2 s in
  let* s := calc_pos (S bi) s in
  let* s := calc_pos (S (S bi)) s in
  let (e2, s) := fresh c s in
  let* s := set_data (S bi) (Some e2) s in
  let s := ev_acq e2 s in
  let* s := on (S bi) (e_assign vs) s in
  let* s :=
    match d with
    | Some e =>
        let (e3, s) := fresh (ecat e) s in
        let* s := set_data (S (S bi)) (Some e3) s in
        let s := ev_acq e3 s in
        let* s := on (S (S bi)) (e_assign_from e (row - start) n2) s in
        let* z := size_at bi s in
        on bi (e_resize z) s
    | None => Ok s
    end in
  adj_up (S (S (S bi))) len s.

(** insert_cells_impl, soa/main_def.inl:2041-2140; [c] is the type of *it_begin. *)
Definition insert_cells_impl (row bi : nat) (vs : list V) (s : st) : res (st * nat) :=
  let* start := pos_at bi s in
  match vs with
  | [] => Ok (s, nblk s)
  | v0 :: _ =>
    let c := cat v0 in
    let len := length vs in
    let* d := data_at bi s in
    match d with
    | None =>
        if row =? start then
          let* pv := is_prev bi (Some c) s in
          if pv then
            let* s := on (pred bi) (e_append vs) s in
            let* s := size_add (pred bi) len s in
            let s := with_cs (cs s + len) s in
            let* s := adj_up bi len s in
            Ok (s, pred bi)
          else
            let* p := pos_at bi s in
            let* s := ins bi (BK p len None) s in
            let (e, s) := fresh c s in
            let* s := set_data bi (Some e) s in
            let s := ev_acq e s in
            let* s := on bi (e_assign vs) s in
            let s := with_cs (cs s + len) s in
            let* s := adj_up (S bi) len s in
            Ok (s, bi)
        else
          let* s := insert_cells_to_middle row bi c vs s in
          Ok (with_cs (cs s + len) s, S bi)
    | Some old =>
        if c =? ecat old then
          let* s := on bi (e_insert (row - start) vs) s in
          let* s := size_add bi len s in
          let s := with_cs (cs s + len) s in
          let* s := adj_up (S bi) len s in
          Ok (s, bi)
        else if row =? start then
          let* pv := is_prev bi (Some c) s in
          if pv then
            let* s := on (pred bi) (e_append vs) s in
            let* s := size_add (pred bi) len s in
            let s := with_cs (cs s + len) s in
            let* s := adj_up bi len s in
            Ok (s, pred bi)
          else
            let* p := pos_at bi s in
            let* s := ins bi (BK p len None) s in
            let (e, s) := fresh c s in
            let* s := set_data bi (Some e) s in
            let s := ev_acq old s in       (* 2126: the old block is reported *)
            let* s := on bi (e_assign vs) s in
            let* s := set_size bi len s in
            let s := with_cs (cs s + len) s in
            let* s := adj_up (S bi) len s in
            Ok (s, bi)
        else
          let* s := insert_cells_to_middle row bi c vs s in
          Ok (with_cs (cs s + len) s, S bi)
    end
  end.

(** insert, soa/main_def.inl:1164-1249. *)
Definition insert (hint : option (option nat)) (pos : nat) (vs : list V) (s : st)
  : res (st * nat) :=
  let* bi := locate hint pos s in insert_cells_impl pos bi vs s.

(** ** Appending and resizing *)

(** push_back with push_back_impl, soa/main_def.inl:1077-1108, 1253-1284 (emplace_back,
    1131-1160 and 1288-1320, does the same with the constructed value). *)
Definition push_back (v : V) (s : st) : res (st * nat) :=
  let last := nth_error (bl s) (pred (nblk s)) in
  let c := Some (cat v) in
  match last with
  | Some (BK _ _ (Some e)) =>
      if ecat e =? cat v then
        let bi := nblk s - 1 in
        let* s := on bi (e_append [v]) s in
        let* s := size_add bi 1 s in
        let s := with_cs (cs s + 1) s in
        Ok (s, bi)
      else
        let bi := nblk s in
        let s := push_blk (BK (cs s) 1 None) s in
        let* s := new_cell bi v s in
        Ok (with_cs (cs s + 1) s, bi)
  | _ =>
      let bi := nblk s in
      let s := push_blk (BK (cs s) 1 None) s in
      let* s := new_cell bi v s in
      Ok (with_cs (cs s + 1) s, bi)
  end.

(** append_empty, soa/main_def.inl:5006-5037. *)
Definition append_empty (len : nat) (s : st) : res (st * bool) :=
  match nblk s with
  | O => Ok (with_cs len (push_blk (BK 0 len None) s), true)
  | S last =>
      let* d := data_at last s in
      match d with
      | None =>
          let* s := size_add last len s in
          Ok (with_cs (cs s + len) s, false)
      | Some _ =>
          Ok (with_cs (cs s + len) (push_blk (BK (cs s) len None) s), true)
      end
  end.

(** push_back_empty, soa/main_def.inl:1111-1127. *)
Definition push_back_empty (s : st) : res (st * nat) :=
  let bi := nblk s in
  let* (s, added) := append_empty 1 s in
  Ok (s, if (added : bool) then bi else pred bi).

(** The shrinking part of resize_impl, soa/main_def.inl:5096-5138; [bi] contains the last row
    that stays. *)
Definition resize_down (n bi : nat) (s : st) : res st :=
  let new_end := n - 1 in
  let* d := data_at bi s in
  let* start := pos_at bi s in
  let* z := size_at bi s in
  let last := start + z - 1 in
  let* s :=
    (if new_end <? last then
       let nz := new_end - start + 1 in
       let* s := match d with
                 | Some _ =>
                     let* s := overwrite bi (new_end + 1) (last - new_end) s in
                     on bi (e_resize nz) s
                 | None => Ok s
                 end in
       set_size bi nz s
     else Ok s) in
  let k := nblk s - S bi in
  let* s := delete_element_blocks (S bi) k s in
  let* s := del (S bi) k s in
  Ok (with_cs n s).

(** resize with resize_impl, soa/main_def.inl:5059-5139. *)
Definition resize (n : nat) (s : st) : res st :=
  if n =? cs s then Ok s
  else if n =? 0 then clear s
  else if cs s <? n then
    let* (s, _) := append_empty (n - cs s) s in Ok s
  else
    let* bi := block_pos (n - 1) 0 s in
    if bi =? nblk s then Throw E_out_of_range
    else resize_down n bi s.

(** ** Setting a range *)

(** append_to_prev_block, soa/main_def.inl:4319-4330. *)
Definition append_to_prev (bi c len : nat) (vs : list V) (s : st) : res (st * bool) :=
  let* pv := is_prev bi (Some c) s in
  if negb pv then Ok (s, false)
  else
    let* s := on (pred bi) (e_append vs) s in
    let* s := size_add (pred bi) len s in
    Ok (s, true).

(** A new block with the given values in slot [bi] and its acquired event, e.g.
    soa/main_def.inl:2908-2911. *)
Definition new_values (bi c : nat) (vs : list V) (s : st) : res st :=
  let (e, s) := fresh c s in
  let* s := set_data bi (Some e) s in
  let s := ev_acq e s in
  on bi (e_assign vs) s.

(** set_cells_to_single_block, soa/main_def.inl:2857-3028. *)
Definition set_cells_single (a b bi : nat) (c : nat) (vs : list V) (s : st)
  : res (st * nat) :=
  let* start := pos_at bi s in
  let len := length vs in
  let* d := data_at bi s in
  let* z := size_at bi s in
  if ceqb (dcat d) (Some c) then
    let off := a - start in
    let* s := overwrite bi off len s in
    let* s := (if (off =? 0) && (len =? z) then on bi (e_assign vs) s
               else on bi (e_set off vs) s) in
    Ok (s, bi)
  else
  let last := start + z - 1 in
  if a =? start then
    if b =? last then
      let* (s, joined) := append_to_prev bi c (b - a + 1) vs s in
      if (joined : bool) then
        let* s := delete_element_block bi s in
        let* s := del bi 1 s in
        let* (s, _) := merge_next (pred bi) s in
        Ok (s, pred bi)
      else
        let s := match d with Some e => destroy e (ev_rel e s) | None => s end in
        let* s := new_values bi c vs s in
        let* (s, _) := merge_next bi s in
        Ok (s, bi)
    else
      let rest := last - b in
      let* s := set_size bi rest s in
      let* s :=
        match d with
        | Some e =>
            let (e2, s) := fresh (ecat e) s in
            let p := b - start + 1 in
            let* e2 := e_assign_from e p rest e2 in
            let* s := overwrite bi 0 p s in
            let* s := on bi (e_resize 0) s in
            let* e0 := edata bi s in
            let s := destroy e0 s in
            set_data bi (Some e2) s          (* 2938: no events *)
        | None => Ok s
        end in
      let n := b - a + 1 in
      let* (s, joined) := append_to_prev bi c n vs s in
      if (joined : bool) then
        let* s := pos_add bi n s in
        Ok (s, pred bi)
      else
        let* p := pos_at bi s in
        let* s := pos_add bi n s in
        let* s := ins bi (BK p n None) s in
        let* s := new_values bi c vs s in
        let* s := set_size bi n s in
        Ok (s, bi)
  else if b =? last then
    let nz := a - start in
    let* s := set_size bi nz s in
    let* s :=
      match d with
      | Some _ =>
          let* s := overwrite bi nz len s in
          on bi (e_resize nz) s
      | None => Ok s
      end in
    let n := b - a + 1 in
    if bi <? nblk s - 1 then
      let* nx := is_next bi (Some c) s in
      if nx then
        let* s := on (S bi) (e_prepend vs) s in
        let* s := size_add (S bi) n s in
        let* s := pos_sub (S bi) n s in
        Ok (s, S bi)
      else
        let* s := ins (S bi) (BK 0 n None) s in
        let* s := calc_pos (S bi) s in
        let* s := new_values (S bi) c vs s in
        Ok (s, S bi)
    else
      let s := push_blk (BK (cs s - n) n None) s in
      let* s := new_values (nblk s - 1) c vs s in
      Ok (s, S bi)
  else
    let* (s, bi) := to_middle bi (a - start) (b - a + 1) true s in
    let* s := new_values bi c vs s in
    Ok (s, bi).

(** set_cells_to_multi_blocks_block1_non_equal, soa/main_def.inl:3055-3192. *)
Definition set_cells_multi_non_equal (a b bi1 bi2 : nat) (c : nat) (vs : list V) (s : st)
  : res (st * nat) :=
  let* start1 := pos_at bi1 s in
  let* start2 := pos_at bi2 s in
  let* z2 := size_at bi2 s in
  let len := length vs in
  let off := a - start1 in
  let last2 := start2 + z2 - 1 in
  (* block 1 and block 0, 3076-3110: (data block taken over, its position and
     size, first index to erase) *)
  let* (s, taken, dpos, dsize, ie_begin) :=
    (if off =? 0 then
       let* pv := is_prev bi1 (Some c) s in
       if pv then
         let* e0 := edata (pred bi1) s in
         let* s := set_data (pred bi1) None s in
         let* z0 := size_at (pred bi1) s in
         let* p0 := pos_at (pred bi1) s in
         Ok (s, Some e0, p0, len + z0, pred bi1)
       else Ok (s, None, a, len, bi1)
     else
       let* d1 := data_at bi1 s in
       let* s :=
         match d1 with
         | Some _ =>
             let* z1 := size_at bi1 s in
             let* s := overwrite bi1 off (z1 - off) s in
             on bi1 (e_resize off) s
         | None => Ok s
         end in
       let* s := set_size bi1 off s in
       Ok (s, None, a, len, S bi1)) in
  (* the new data block, 3112-3121 *)
  let* (s, e) :=
    match taken with
    | Some e0 => let* e := e_append vs e0 in Ok (s, e)
    | None =>
        let (e, s) := fresh c s in
        let s := ev_acq e s in
        let* e := e_assign vs e in
        Ok (s, e)
    end in
  (* block 2 and block 3, 3123-3180 *)
  let* (s, e, dsize, ie_end) :=
    (if b =? last2 then
       if S bi2 <? nblk s then
         let* d3 := data_at (S bi2) s in
         match d3 with
         | Some e3 =>
             if ecat e3 =? c then
               let* e := e_append_block e3 e in
               let* s := on (S bi2) (e_resize 0) s in
               let* z3 := size_at (S bi2) s in
               Ok (s, e, dsize + z3, S (S bi2))
             else Ok (s, e, dsize, S bi2)
         | None => Ok (s, e, dsize, S bi2)
         end
       else Ok (s, e, dsize, S bi2)
     else
       let* d2 := data_at bi2 s in
       if ceqb (dcat d2) (Some c) then
         let* e2 := edata bi2 s in
         let cp := b - start2 + 1 in
         let n := last2 - b in
         let* e := e_append_from e2 cp n e in
         let* s := on bi2 (e_resize cp) s in
         Ok (s, e, dsize + n, S bi2)
       else
         let n := b - start2 + 1 in
         let* s :=
           match d2 with
           | Some _ =>
               let* s := overwrite bi2 0 n s in
               on bi2 (e_erase 0 n) s
           | None => Ok s
           end in
         let* s := size_sub bi2 n s in
         let* s := pos_add bi2 n s in
         Ok (s, e, dsize, bi2)) in
  let* s := delete_element_blocks ie_begin (ie_end - ie_begin) s in
  let* s := del ie_begin (ie_end - ie_begin) s in
  let* s := ins ie_begin (BK dpos dsize (Some e)) s in
  Ok (s, ie_begin).

(** set_cells_to_multi_blocks_block1_non_empty, block 1 of the same type:
    soa/main_def.inl:3208-3272. *)
Definition set_cells_multi_equal (a b bi1 bi2 : nat) (c : nat) (vs : list V) (s : st)
  : res (st * nat) :=
  let* start1 := pos_at bi1 s in
  let* start2 := pos_at bi2 s in
  let* z2 := size_at bi2 s in
  let* z1 := size_at bi1 s in
  let len := length vs in
  let off := a - start1 in
  let last2 := start2 + z2 - 1 in
  let* s := overwrite bi1 off (z1 - off) s in
  let* s := on bi1 (e_resize off) s in
  let* s := on bi1 (e_append vs) s in
  let* s := set_size bi1 (off + len) s in
  let* d2 := data_at bi2 s in
  let* (s, ie_end) :=
    (if b =? last2 then Ok (s, S bi2)
     else
       let n := b - start2 + 1 in
       match d2 with
       | Some e2 =>
           if ecat e2 =? c then
             let m := last2 - b in
             let* s := on bi1 (e_append_from e2 n m) s in
             let* s := overwrite bi2 0 n s in
             let* s := on bi2 (e_resize 0) s in
             let* s := size_add bi1 m s in
             Ok (s, S bi2)
           else
             (* 3255: erase without overwrite_values *)
             let* s := on bi2 (e_erase 0 n) s in
             let* s := size_sub bi2 n s in
             let* s := pos_add bi2 n s in
             Ok (s, bi2)
       | None =>
           let* s := size_sub bi2 n s in
           let* s := pos_add bi2 n s in
           Ok (s, bi2)
       end) in
  let* s := delete_element_blocks (S bi1) (ie_end - S bi1) s in
  let* s := del (S bi1) (ie_end - S bi1) s in
  Ok (s, bi1).

(** set_cells_to_multi_blocks with set_cells_to_multi_blocks_block1_non_empty,
    soa/main_def.inl:3032-3051, 3196-3278. *)
Definition set_cells_multi (a b bi1 bi2 : nat) (c : nat) (vs : list V) (s : st)
  : res (st * nat) :=
  let* d1 := data_at bi1 s in
  if ceqb (dcat d1) (Some c) then set_cells_multi_equal a b bi1 bi2 c vs s
  else set_cells_multi_non_equal a b bi1 bi2 c vs s.

(** set_cells_impl, soa/main_def.inl:2838-2853. *)
Definition set_cells_impl (a b bi1 : nat) (c : nat) (vs : list V) (s : st)
  : res (st * nat) :=
  let* bi2 := block_pos b bi1 s in
  if bi2 =? nblk s then Throw E_out_of_range
  else if bi1 =? bi2 then set_cells_single a b bi1 c vs s
  else set_cells_multi a b bi1 bi2 c vs s.

(** set(pos, first, last) and set(pos_hint, pos, first, last), soa/main_def.inl:983-1073 with
    calc_input_end_position, util.hpp:171-186.  (With a hint the block index is not
    checked before set_cells_impl; set_cells_impl then throws the same exception.) *)
Definition set_range (hint : option (option nat)) (pos : nat) (vs : list V) (s : st)
  : res (st * nat) :=
  match vs with
  | [] => Ok (s, nblk s)
  | v0 :: _ =>
      let b := pos + length vs - 1 in
      if cs s <=? b then Throw E_out_of_range
      else
        let* bi1 := match hint with
                    | None => locate None pos s
                    | Some h => block_pos_hint h pos s
                    end in
        set_cells_impl pos b bi1 (cat v0) vs s
  end.

End Mtv.
