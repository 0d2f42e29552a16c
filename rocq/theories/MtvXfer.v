(** Model of mdds::mtv::soa::multi_type_vector, third part: the calls on two
    containers, transfer and the swap of ranges.

    Same sources and simplifications as MtvModel.v.  The two containers are two
    separate states: transfer throws for one and the same container
    (soa/main_def.inl:784-785), and a range swap of a container with itself, which the
    code does not refuse, is not modelled.  Neither container shares its blocks
    with a third one, so detach_impl does nothing. *)
From Coq Require Import List ZArith Lia Bool.
From Verif Require Import Base MtvModel.
Import ListNotations.

Section Mtv3.
Context {V : Type}.
Variable cat : V -> nat.
Variable managed : nat -> bool.
Notation eblk := (@eblk V).
Notation blk := (@blk V).
Notation st := (@st V).

(** ** transfer *)

(** Room for one block in the emptied block [k] of the destination,
    soa/main_def.inl:4486-4525. *)
Definition carve (dp len k : nat) (d : st) : res (st * nat) :=
  let* p := pos_at k d in
  let* z := size_at k d in
  let off := dp - p in
  if off =? 0 then
    if len <? z then
      let* d := pos_add k len d in
      let* d := size_sub k len d in
      let* d := ins k (BK p len None) d in
      Ok (d, k)
    else Ok (d, k)
  else if off + len - 1 =? z - 1 then
    let* d := size_sub k len d in
    let* d := ins (S k) (BK 0 len None) d in
    let* d := calc_pos (S k) d in
    Ok (d, S k)
  else
    let lower := z - off - len in
    let* d := ins_n (S k) 2 d in
    let* d := set_size k off d in
    let* d := set_size (S k) len d in
    let* d := set_size (S (S k)) lower d in
    let* d := calc_pos (S k) d in
    let* d := calc_pos (S (S k)) d in
    Ok (d, S k).

(** transfer_single_block, soa/main_def.inl:4465-4565. *)
Definition transfer_single (a b bi dp : nat) (s d : st) : res (st * st * nat) :=
  let len := b - a + 1 in
  let* src := data_at bi s in
  let* start := pos_at bi s in
  let* (d, k) := set_empty managed None dp (dp + len - 1) d in
  match src with
  | None => Ok (s, d, bi)
  | Some e =>
      let* (d, k) := carve dp len k d in
      let off := a - start in
      let* z := size_at bi s in
      if (off =? 0) && (len =? z) then
        let* d := set_data k (Some e) d in
        let d := ev_acq e d in
        let s := ev_rel e s in
        let* s := set_data bi None s in
        let* (d, _) := merge_adj managed k d in
        let* (s, o) := merge_adj managed bi s in
        Ok (s, d, if o =? 0 then bi else pred bi)
      else
        let (e2, d) := fresh (ecat e) d in
        let* d := set_data k (Some e2) d in
        let d := ev_acq e2 d in
        let* d := on k (e_assign_from e off len) d in
        let* (d, _) := merge_adj managed k d in
        let* (s, i) := set_empty_single managed a b bi false s in
        Ok (s, d, i)
  end.

(** Room for [n] blocks in the emptied block [k] of the destination,
    soa/main_def.inl:5169-5215. *)
Definition carve_n (dp len n k : nat) (d : st) : res (st * nat) :=
  let* p := pos_at k d in
  let* z := size_at k d in
  let off := dp - p in
  if off =? 0 then
    if len <? z then
      let* d := size_sub k len d in
      let* d := pos_add k len d in
      let* d := ins_n k n d in
      Ok (d, k)
    else
      let* d := delete_element_block managed k d in
      let* d := set_size k 0 d in
      let* d := (if 1 <? n then ins_n k (n - 1) d else Ok d) in
      Ok (d, k)
  else if off + len - 1 =? z - 1 then
    let* d := ins_n (S k) n d in
    let* d := size_sub k len d in
    Ok (d, S k)
  else
    let lower := z - off - len in
    let* d := ins_n (S k) (n + 1) d in
    let* d := set_size k off d in
    let* np := next_pos k d in
    let* d := set_pos (k + n + 1) (np + len) d in
    let* d := set_size (k + n + 1) lower d in
    Ok (d, S k).

(** The first block of the range, soa/main_def.inl:5221-5268; the last result is
    del_index1. *)
Definition xfer_first (off bi k : nat) (s d : st) : res (st * st * nat) :=
  let* z := size_at bi s in
  let* data := data_at bi s in
  if negb (off =? 0) then
    let* d := set_size k (z - off) d in
    let* d := (if 0 <? k then calc_pos k d else Ok d) in
    let* (s, d) :=
      match data with
      | Some e =>
          let (e2, d) := fresh (ecat e) d in
          let* d := set_data k (Some e2) d in
          let d := ev_acq e2 d in
          let* d := on k (e_assign_from e off (z - off)) d in
          let* s := on bi (e_resize off) s in
          Ok (s, d)
      | None => Ok (s, d)
      end in
    let* s := set_size bi off s in
    Ok (s, d, S bi)
  else
    let* d := set_data k data d in
    let* d := set_size k z d in
    let* d := calc_pos k d in
    let* (s, d) :=
      match data with
      | Some e =>
          let d := ev_acq e d in
          let s := ev_rel e s in
          let* s := set_data bi None s in
          Ok (s, d)
      | None => Ok (s, d)
      end in
    let* s := set_size bi 0 s in
    Ok (s, d, bi).

(** The loop over the blocks in between, soa/main_def.inl:5270-5295; [i], [k] are the
    block indexes in source and destination, [p] the position. *)
Fixpoint xfer_mid (n i k p : nat) (s d : st) : res (st * st) :=
  match n with
  | O => Ok (s, d)
  | S n' =>
      let* data := data_at i s in
      let* z := size_at i s in
      let* d := set_data k data d in
      let* d := set_size k z d in
      let* d := set_pos k p d in
      let* s := set_size i 0 s in
      let* (s, d) :=
        match data with
        | Some e =>
            let d := ev_acq e d in
            let s := ev_rel e s in
            let* s := set_data i None s in
            Ok (s, d)
        | None => Ok (s, d)
        end in
      xfer_mid n' (S i) (S k) (p + z) s d
  end.

(** The last block of the range, soa/main_def.inl:5298-5345 (block_len is at least 2);
    [n] is size_to_trans, the last result del_index2. *)
Definition xfer_last (n bi k : nat) (s d : st) : res (st * st * nat) :=
  let* z := size_at bi s in
  let* data := data_at bi s in
  if n <? z then
    let* d := calc_pos k d in
    let* d := set_size k n d in
    let* (s, d) :=
      match data with
      | Some e =>
          let (e2, d) := fresh (ecat e) d in
          let* d := set_data k (Some e2) d in
          let d := ev_acq e2 d in
          let* d := on k (e_assign_from e 0 n) d in
          let* s := on bi (e_erase 0 n) s in
          Ok (s, d)
      | None => Ok (s, d)
      end in
    let* s := pos_add bi n s in
    let* s := size_sub bi n s in
    Ok (s, d, pred bi)
  else
    let* d := set_size k z d in
    let* d := set_data k data d in
    let* d := calc_pos k d in
    let* (s, d) :=
      match data with
      | Some e =>
          let d := ev_acq e d in
          let s := ev_rel e s in
          let* s := set_data bi None s in
          Ok (s, d)
      | None => Ok (s, d)
      end in
    let* s := set_size bi 0 s in
    Ok (s, d, bi).

(** The source after the blocks have gone, soa/main_def.inl:5354-5425. *)
Definition xfer_close (len bi1 bi2 del1 del2 : nat) (s : st) : res (st * nat) :=
  if del2 <? del1 then
    let* d1 := data_at bi1 s in
    let* d2 := data_at bi2 s in
    match d1 with
    | None => let* s := size_add bi1 len s in Ok (s, bi1)
    | Some _ =>
        match d2 with
        | None =>
            let* s := size_add bi2 len s in
            let* s := pos_sub bi2 len s in
            Ok (s, bi2)
        | Some _ =>
            let* s := ins bi2 (BK 0 len None) s in
            let* s := calc_pos bi2 s in
            Ok (s, bi2)
        end
    end
  else
    let* pv := is_prev del1 None s in
    let* (s, del1) :=
      (if pv then
         let* s := size_add (pred del1) len s in Ok (s, del1)
       else
         let* s := set_size del1 len s in Ok (s, S del1)) in
    let ret := pred del1 in
    let* s := (if del1 <=? del2 then del del1 (del2 - del1 + 1) s else Ok s) in
    let* (s, _) := merge_adj managed ret s in
    let* s := calc_pos ret s in
    Ok (s, ret).

(** transfer_multi_blocks, soa/main_def.inl:5142-5426 (always block_index1 < block_index2,
    so block_len is at least 2). *)
Definition transfer_multi (a b bi1 bi2 dp : nat) (s d : st) : res (st * st * nat) :=
  let* start1 := pos_at bi1 s in
  let* start2 := pos_at bi2 s in
  let len := b - a + 1 in
  let* (d, k) := set_empty managed None dp (dp + len - 1) d in
  let n := bi2 - bi1 + 1 in
  let* (d, k) := carve_n dp len n k d in
  let* (s, d, del1) := xfer_first (a - start1) bi1 k s d in
  let* p := next_pos k d in
  let* (s, d) := xfer_mid (n - 2) (S bi1) (S k) p s d in
  let* (s, d, del2) := xfer_last (b - start2 + 1) bi2 (k + n - 1) s d in
  let* (d, _) := merge_adj managed (k + n - 1) d in
  let* (d, _) := merge_adj managed k d in
  let* (s, i) := xfer_close len bi1 bi2 del1 del2 s in
  Ok (s, d, i).

(** transfer_impl, soa/main_def.inl:4432-4462. *)
Definition transfer_impl (a b bi1 dp : nat) (s d : st) : res (st * st * nat) :=
  if b <? a then Throw E_out_of_range
  else
    let* bi2 := block_pos b bi1 s in
    if bi2 =? nblk s then Throw E_out_of_range
    else
      let len := b - a + 1 in
      if cs d <=? dp + len - 1 then Throw E_out_of_range
      else if bi1 =? bi2 then transfer_single a b bi1 dp s d
      else transfer_multi a b bi1 bi2 dp s d.

(** transfer(start, end, dest, dest_pos) and the overload with a hint,
    soa/main_def.inl:778-896. *)
Definition transfer (hint : option (option nat)) (a b dp : nat) (s d : st) : res (st * st * nat) :=
  let* bi1 := locate hint a s in transfer_impl a b bi1 dp s d.

(** ** swap of ranges *)

(** The released events of a run of blocks, the loop soa/main_def.inl:2765-2772. *)
Fixpoint rel_blocks (l : list blk) (s : st) : st :=
  match l with
  | [] => s
  | b :: t => rel_blocks t (match bd b with Some e => ev_rel e s | None => s end)
  end.

(** The rows of the first block, soa/main_def.inl:2708-2737. *)
Definition prep_first (bi1 off1 : nat) (s : st) : res (st * list blk * nat) :=
  if off1 =? 0 then Ok (s, [], bi1)
  else
    let* z := size_at bi1 s in
    let n := z - off1 in
    let* data := data_at bi1 s in
    let* (s, data1) :=
      match data with
      | Some e =>
          let (e1, s) := fresh (ecat e) s in
          let* e1 := e_assign_from e off1 n e1 in
          let* s := on bi1 (e_resize off1) s in
          Ok (s, Some e1)
      | None => Ok (s, None)
      end in
    let* s := set_size bi1 off1 s in
    Ok (s, if n =? 0 then [] else [BK 0 n data1], S bi1).

(** The rows of the last block, soa/main_def.inl:2739-2762; the index is the end of the
    blocks to be taken as a whole. *)
Definition prep_last (bi2 off2 : nat) (s : st) : res (st * list blk * nat) :=
  let* z2 := size_at bi2 s in
  if off2 =? z2 - 1 then Ok (s, [], S bi2)
  else
    let n := off2 + 1 in
    let* data := data_at bi2 s in
    let* (s, data2) :=
      match data with
      | Some e =>
          let (e2, s) := fresh (ecat e) s in
          let* e2 := e_assign_from e 0 n e2 in
          let* s := on bi2 (e_erase 0 n) s in
          Ok (s, Some e2)
      | None => Ok (s, None)
      end in
    let* s := pos_add bi2 n s in
    let* s := size_sub bi2 n s in
    Ok (s, if n =? 0 then [] else [BK 0 n data2], bi2).

(** prepare_blocks_to_transfer, soa/main_def.inl:2699-2781: the bucket (its blocks and its
    insert_index, which always equals index_begin). *)
Definition prepare (bi1 off1 bi2 off2 : nat) (s : st) : res (st * list blk * nat) :=
  let* (s, first, ib) := prep_first bi1 off1 s in
  let* (s, last, ie) := prep_last bi2 off2 s in
  let mid := firstn (ie - ib) (skipn ib (bl s)) in
  let s := rel_blocks mid s in
  let* s := del ib (ie - ib) s in
  Ok (s, first ++ mid ++ last, ib).

(** The positions given to new blocks, soa/main_def.inl:2684-2688. *)
Fixpoint place (p : nat) (l : list blk) : list blk :=
  match l with
  | [] => []
  | b :: t => BK p (bs b) (bd b) :: place (p + bs b) t
  end.

(** The acquired events of new blocks, soa/main_def.inl:2690-2693. *)
Fixpoint acq_blocks (l : list blk) (s : st) : st :=
  match l with
  | [] => s
  | b :: t => acq_blocks t (match bd b with Some e => ev_acq e s | None => s end)
  end.

(** insert_blocks_at, soa/main_def.inl:2681-2696. *)
Definition insert_blocks_at (p i : nat) (l : list blk) (s : st) : res st :=
  ins_l i (place p l) (acq_blocks l s).

(** A new block with the elements [so, so+len) of [e] in the empty slot [k]; the
    four lines repeated e.g. in soa/main_def.inl:4873-4878. *)
Definition put_copy (e : eblk) (so len k : nat) (s : st) : res st :=
  let (e1, s) := fresh (ecat e) s in
  let* s := set_data k (Some e1) s in
  let s := ev_acq e1 s in
  on k (e_assign_from e so len) s.

(** exchange_elements on a single block, soa/main_def.inl:4810-4976; the block [di] has
    elements (asserted in line 4815), a null pointer is [Undef]. *)
Definition exchange (e : eblk) (so di dof len : nat) (s : st) : res (st * eblk) :=
  let* db := edata di s in
  let* z := size_at di s in
  let* nx := is_next di (Some (ecat e)) s in
  if dof =? 0 then
    let* pv := is_prev di (Some (ecat e)) s in
    if z =? len then
      let s := ev_rel db s in
      let* s := set_data di None s in
      if pv then
        let* s := on (pred di) (e_append_from e so len) s in
        let* s := size_add (pred di) len s in
        if nx then
          let* en := edata (S di) s in
          let* s := on (pred di) (e_append_block en) s in
          let* zn := size_at (S di) s in
          let* s := size_add (pred di) zn s in
          let* s := delete_element_block managed (S di) s in
          let* s := del di 2 s in
          Ok (s, db)
        else
          let* s := del di 1 s in
          Ok (s, db)
      else if nx then
        let* s := on (S di) (e_prepend_from e so len) s in
        let* s := pos_sub (S di) len s in
        let* s := size_add (S di) len s in
        let* s := del di 1 s in
        Ok (s, db)
      else
        let* s := put_copy e so len di s in
        Ok (s, db)
    else
      let (r, s) := fresh (ecat db) s in
      let* r := e_assign_from db 0 len r in
      let* s := on di (e_erase 0 len) s in
      let* p := pos_at di s in
      let* s := pos_add di len s in
      let* s := size_sub di len s in
      if pv then
        let* s := on (pred di) (e_append_from e so len) s in
        let* s := size_add (pred di) len s in
        Ok (s, r)
      else
        let* s := ins di (BK p len None) s in
        let* s := put_copy e so len di s in
        Ok (s, r)
  else
    let (r, s) := fresh (ecat db) s in
    let* r := e_assign_from db dof len r in
    if dof + len =? z then
      let* s := on di (e_resize dof) s in
      let* s := set_size di dof s in
      if nx then
        let* s := on (S di) (e_prepend_from e so len) s in
        let* s := pos_sub (S di) len s in
        let* s := size_add (S di) len s in
        Ok (s, r)
      else
        let* p := pos_at di s in
        let* s := ins (S di) (BK (p + dof) len None) s in
        let* s := put_copy e so len (S di) s in
        Ok (s, r)
    else
      let* (s, k) := to_middle managed di dof len false s in
      let* s := put_copy e so len k s in
      Ok (s, r).

(** exchange_elements over several blocks, soa/main_def.inl:4979-5003. *)
Definition exchange_multi (e : eblk) (so di1 dof1 di2 dof2 len : nat) (s : st)
  : res (st * list blk) :=
  let* (s, blocks, i) := prepare di1 dof1 di2 dof2 s in
  let* s := ins i (BK 0 len None) s in
  let* s := (if 0 <? i then calc_pos i s else Ok s) in
  let* s := put_copy e so len i s in
  let* (s, _) := merge_adj managed i s in
  Ok (s, blocks).

(** The source container after its rows have been exchanged for those in [r],
    soa/main_def.inl:1813-1887 without the case of a whole block; [so] and [tail] are
    src_offset and src_tail_len. *)
Definition take_in (r : eblk) (bi so len tail : nat) (s : st) : res st :=
  if so =? 0 then
    let* s := on bi (e_erase 0 len) s in
    let* s := pos_add bi len s in
    let* s := size_sub bi len s in
    let* pv := is_prev bi (Some (ecat r)) s in
    if pv then
      let* s := on (pred bi) (e_append_block r) s in
      size_add (pred bi) len s
    else
      let* p := pos_at bi s in
      let* s := ins bi (BK (p - len) len None) s in
      let* s := set_data bi (Some r) s in
      Ok (ev_acq r s)
  else if tail =? 0 then
    let* s := on bi (e_resize so) s in
    let* s := set_size bi so s in
    let* nx := is_next bi (Some (ecat r)) s in
    if nx then
      let* s := on (S bi) (e_prepend_from r 0 len) s in
      let* s := size_add (S bi) len s in
      pos_sub (S bi) len s
    else
      let* s := ins (S bi) (BK 0 len None) s in
      let* s := calc_pos (S bi) s in
      let* s := set_data (S bi) (Some r) s in
      Ok (ev_acq r s)
  else
    let* (s, k) := to_middle managed bi so len false s in
    let* s := set_data k (Some r) s in
    Ok (ev_acq r s).

(** swap_single_block, soa/main_def.inl:1749-1887.  The type of the block handed back by
    exchange_elements is that of the other block (cat_dst).  A temporary block is
    emptied before its unique_ptr deletes it, so that nothing is freed. *)
Definition swap_single (a b op bi obi : nat) (s o : st) : res (st * st) :=
  let* sd := data_at bi s in
  let* od := data_at obi o in
  let* sp := pos_at bi s in
  let* opos := pos_at obi o in
  let oend := op + b - a in
  let len := b - a + 1 in
  let so := a - sp in
  let oo := op - opos in
  let* z := size_at bi s in
  let tail := z - so - len in
  match sd, od with
  | None, None => Ok (s, o)
  | None, Some _ =>
      let* (o, s, _) := transfer_single op oend obi a o s in Ok (s, o)
  | Some _, None =>
      let* (s, o, _) := transfer_single a b bi op s o in Ok (s, o)
  | Some e, Some eo =>
      if ecat e =? ecat eo then
        (* swap_values, types.hpp:591-607 *)
        let* l := e_slice so len e in
        let* lo := e_slice oo len eo in
        let* s := on bi (e_set cat so lo) s in
        let* o := on obi (e_set cat oo l) o in
        Ok (s, o)
      else if (so =? 0) && (tail =? 0) then
        let s := ev_rel e s in
        let* (o, r) := exchange e so obi oo len o in
        let* s := set_data bi (Some r) s in
        let s := ev_acq r s in
        let* (s, _) := merge_adj managed bi s in
        Ok (s, o)
      else
        let* (o, r) := exchange e so obi oo len o in
        let* s := take_in r bi so len tail s in
        Ok (s, o)
  end.

(** swap_single_to_multi_blocks, soa/main_def.inl:1890-1987; new_blocks.check_integrity()
    (soa/main_def.inl:253-262) compares the sizes of the three arrays, which the model
    cannot tell apart. *)
Definition swap_single_multi (a b op bi oi1 oi2 : nat) (s o : st) : res (st * st) :=
  let* sd := data_at bi s in
  let* sp := pos_at bi s in
  let* op1 := pos_at oi1 o in
  let* op2 := pos_at oi2 o in
  let len := b - a + 1 in
  match sd with
  | None =>
      let* (o, s, _) := transfer_multi op (op + len - 1) oi1 oi2 a o s in Ok (s, o)
  | Some e =>
      let so := a - sp in
      let oo1 := op - op1 in
      let oo2 := op + len - 1 - op2 in
      let* z := size_at bi s in
      let tail := z - so - len in
      let* (o, nb) := exchange_multi e so oi1 oo1 oi2 oo2 len o in
      if length nb =? 0 then Throw E_general
      else if so =? 0 then
        let* src_position := pos_at bi s in
        let* s :=
          (if tail =? 0 then
             let* s := on bi (e_resize 0) s in
             let* s := delete_element_block managed bi s in
             del bi 1 s
           else
             let* s := on bi (e_erase 0 len) s in
             let* s := size_sub bi len s in
             pos_add bi len s) in
        let* s := insert_blocks_at src_position bi nb s in
        let* (s, _) := merge_next managed (bi + length nb - 1) s in
        let* (s, _) := (if 0 <? bi then merge_next managed (bi - 1) s else Ok (s, false)) in
        Ok (s, o)
      else
        let* s :=
          (if tail =? 0 then
             let* s := on bi (e_resize so) s in
             set_size bi so s
           else
             let* (s, _) := to_middle managed bi so len false s in
             let* s := delete_element_block managed (S bi) s in
             del (S bi) 1 s) in
        let* position := next_pos bi s in
        let* s := insert_blocks_at position (S bi) nb s in
        let* (s, _) := merge_next managed (bi + length nb) s in
        let* (s, _) := merge_next managed bi s in
        Ok (s, o)
  end.

(** The blocks of a bucket go into a container, soa/main_def.inl:2012-2023 and alike
    2025-2036. *)
Definition put_bucket (i : nat) (blocks : list blk) (s : st) : res st :=
  let* position := (if 0 <? i then next_pos (i - 1) s else Ok 0) in
  let* s := insert_blocks_at position i blocks s in
  let* (s, _) := merge_next managed (i + length blocks - 1) s in
  let* (s, _) := (if 0 <? i then merge_next managed (i - 1) s else Ok (s, false)) in
  Ok s.

(** swap_multi_to_multi_blocks, soa/main_def.inl:1990-2037. *)
Definition swap_multi (a b op bi1 bi2 oi1 oi2 : nat) (s o : st) : res (st * st) :=
  let* sp1 := pos_at bi1 s in
  let* sp2 := pos_at bi2 s in
  let* op1 := pos_at oi1 o in
  let* op2 := pos_at oi2 o in
  let len := b - a + 1 in
  let* (s, sb, si) := prepare bi1 (a - sp1) bi2 (b - sp2) s in
  let* (o, ob, oi) := prepare oi1 (op - op1) oi2 (op + len - 1 - op2) o in
  let* s := put_bucket si ob s in
  let* o := put_bucket oi sb o in
  Ok (s, o).

(** swap_impl, soa/main_def.inl:1713-1746. *)
Definition swap_impl (a b op bi1 bi2 oi1 oi2 : nat) (s o : st) : res (st * st) :=
  if bi1 =? bi2 then
    if oi1 =? oi2 then swap_single a b op bi1 oi1 s o
    else swap_single_multi a b op bi1 oi1 oi2 s o
  else if oi1 =? oi2 then
    let len := b - a + 1 in
    let* (o, s) := swap_single_multi op (op + len - 1) a oi1 bi1 bi2 o s in
    Ok (s, o)
  else swap_multi a b op bi1 bi2 oi1 oi2 s o.

(** swap(start, end, other, other_pos), soa/main_def.inl:5440-5480. *)
Definition swap_range (a b op : nat) (s o : st) : res (st * st) :=
  if b <? a then Throw E_out_of_range
  else
    let oend := op + b - a in
    if (cs s <=? b) || (cs o <=? oend) then Throw E_out_of_range
    else
      let* bi1 := block_pos a 0 s in
      if bi1 =? nblk s then Throw E_out_of_range
      else
        let* bi2 := block_pos b bi1 s in
        if bi2 =? nblk s then Throw E_out_of_range
        else
          let* oi1 := block_pos op 0 o in
          if oi1 =? nblk o then Throw E_out_of_range
          else
            let* oi2 := block_pos oend oi1 o in
            if oi2 =? nblk o then Throw E_out_of_range
            else swap_impl a b op bi1 bi2 oi1 oi2 s o.

End Mtv3.
