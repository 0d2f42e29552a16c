(** Executable model of mdds::packed_trie_map,
    /repo/include/mdds/trie_map.hpp, trie_map_def.inl and trie_map_itr.hpp.

    m_packed is a list of integers in [0, 2^w), w being the width of
    pack_value_type; everything pushed into it is reduced modulo 2^w.  A
    pointer into m_packed is an index (null pointers are [None]); reading
    outside the buffer, or moving a pointer in front of it, is undefined
    ([Undef]).  assert() is compiled out. *)
From Coq Require Import List ZArith Lia Bool Arith.
From Verif Require Import Base TrieModel.
Import ListNotations.
Open Scope Z_scope.

(** sizeof(pack_value_type), and width and signedness of key_unit_type;
    trie_map.hpp:126-139, 500-523 *)
Record ptraits := PT { pbytes : nat; ubits : Z; usigned : bool }.

(** element of a list by an integer index, none outside of it (operator[] of
    std::vector and std::deque); trie_map_def.inl:1254, trie_map_itr.hpp:567 *)
Definition nthZ {A} (l : list A) (i : Z) : option A :=
  if (0 <=? i) && (i <? Z.of_nat (length l)) then nth_error l (Z.to_nat i) else None.

(** ** Bytes *)

(** the [n] low bytes of an unsigned integer, lowest first (object
    representation on a little-endian machine); trie_map_def.inl:319-326 *)
Fixpoint le_bytes (n : nat) (z : Z) : list Z :=
  match n with O => [] | S n' => z mod 256 :: le_bytes n' (z / 256) end.
(** the integer with these bytes; trie_map_def.inl:319-326 *)
Fixpoint le_value (b : list Z) : Z :=
  match b with [] => 0 | x :: b' => x + 256 * le_value b' end.

Section PACK.
Context {V : Type}.
Variable T : ptraits.

(** 2^w, w the width of pack_value_type; trie_map.hpp:543-546 *)
Definition pmod : Z := 2 ^ (8 * Z.of_nat (pbytes T)).
(** conversion to pack_value_type; trie_map_def.inl:1085-1088, 1162-1168, 1184 *)
Definition wrap (z : Z) : Z := z mod pmod.
(** null_value; trie_map.hpp:546 *)
Definition null_value : Z := pmod - 1.
(** max_value_pos; trie_map.hpp:548 *)
Definition max_value_pos : Z := null_value - 1.
(** conversion of a pack_value_type to key_unit_type; trie_map_def.inl:229,
    trie_map_itr.hpp:489, 519 *)
Definition cast_unit (z : Z) : Z :=
  let r := z mod 2 ^ ubits T in
  if usigned T && (2 ^ (ubits T - 1) <=? r) then r - 2 ^ ubits T else r.

(** members m_value_store and m_packed; trie_map.hpp:846-847 *)
Record pmap := PM { store : list V; pk : list Z }.

(** reading through a pointer into m_packed; e.g. trie_map_def.inl:227, 272-276 *)
Definition rd (b : list Z) (p : nat) : res Z := deref (nth_error b p).
(** [p - offset]; trie_map_def.inl:299-300, 1276-1277 *)
Definition back (p : nat) (off : Z) : res nat :=
  if (0 <=? off) && (off <=? Z.of_nat p) then Ok (p - Z.to_nat off)%nat else Undef.
(** [p + n] for a value [n] read from the buffer: one past the end of the
    buffer is the last valid pointer; trie_map_def.inl:276-277, 1497-1507 *)
Definition fwd (b : list Z) (p : nat) (n : Z) : res nat :=
  if (0 <=? n) && (Z.of_nat p + n <=? Z.of_nat (length b)) then Ok (p + Z.to_nat n)%nat else Undef.

(** ** Building *)

(** push_value_to_store with check_value_size_or_throw;
    trie_map_def.inl:1127-1156.  Copying and moving the value into the store
    are the same here; the source of a move is not looked at again. *)
Definition push_value (s : list V) (v : V) : res (Z * list V) :=
  if max_value_pos <=? Z.of_nat (length s) then Throw E_size
  else Ok (Z.of_nat (length s), s ++ [v]).

(** push_child_offsets; trie_map_def.inl:1158-1170.  [offset - child_offset]
    is computed in size_t, then converted. *)
Definition push_child_offsets (b : list Z) (offset : nat) (cos : list (nat * Z)) : list Z :=
  b ++ wrap (Z.of_nat (length cos * 2)) ::
  flat_map (fun co => [wrap (snd co); wrap (Z.of_nat offset - Z.of_nat (fst co))]) cos.

(** compact_node, both overloads; trie_map_def.inl:1071-1125.  The nodes of
    packed_trie_map (trie_map.hpp:550-559) and those of trie_map have the same
    shape here: a value and the children with their key units, in order. *)
Fixpoint compact_node (n : tnode V) (s : list V) (b : list Z) : res (nat * (list V * list Z)) :=
  match n with
  | TN v cs =>
      let* (cos, s1, b1) :=
        (fix go (l : list (Z * tnode V)) (cos : list (nat * Z)) (s : list V) (b : list Z) : res (list (nat * Z) * list V * list Z) :=
           match l with
           | [] => Ok (cos, s, b)
           | (c, sub) :: l' =>
               let* (o, sb) := compact_node sub s b in
               go l' (cos ++ [(o, c)]) (fst sb) (snd sb)
           end) cs [] s b in
      let offset := length b1 in
      match v with
      | Some a =>
          let* (pos, s2) := push_value s1 a in
          Ok (offset, (s2, push_child_offsets (b1 ++ [wrap pos]) offset cos))
      | None => Ok (offset, (s1, push_child_offsets (b1 ++ [null_value]) offset cos))
      end
  end.
(** init_pack and compact, both overloads; trie_map_def.inl:1172-1195 *)
Definition compact (root : tnode V) : res pmap :=
  let* (o, sb) := compact_node root [] [0] in
  Ok (PM (fst sb) (set_nth O (wrap (Z.of_nat o)) (snd sb))).

(** packed_trie_map(const trie_map&), and pack() / packed_trie_map(move_to_pack);
    trie_map_def.inl:1013-1018, 1287-1292, 1340-1344 *)
Definition pack (t : tnode V) : res pmap := compact t.

(** entry: key and value; trie_map.hpp:531-540 *)
Local Notation entry := (list Z * V)%type.

(** loop of traverse_range; trie_map_def.inl:1032-1059.  [acc] are the entries
    from range_start to p; [val] and [kids] are root.value and root.children;
    [rec] is the recursive call on a range.  range_count only says whether it
    is zero. *)
Fixpoint traverse_loop (rec : list entry -> res (tnode V)) (pos : nat) (es acc : list entry)
    (rc : Z) (cnt : bool) (val : option V) (kids : list (Z * tnode V)) : res (tnode V) :=
  match es with
  | [] =>
      if cnt then let* sub := rec acc in Ok (TN val (kids ++ [(rc, sub)])) else Ok (TN val kids)
  | (k, v) :: es' =>
      if (length k <? pos)%nat then traverse_loop rec pos es' (acc ++ [(k, v)]) rc cnt val kids
      else if (pos =? length k)%nat then traverse_loop rec pos es' (acc ++ [(k, v)]) rc cnt (Some v) kids
      else
        let c := nth pos k 0 in
        if rc =? 0 then traverse_loop rec pos es' (acc ++ [(k, v)]) c true val kids
        else if negb (rc =? c) then
          let* sub := rec acc in
          traverse_loop rec pos es' [(k, v)] c true val (kids ++ [(rc, sub)])
        else traverse_loop rec pos es' (acc ++ [(k, v)]) rc true val kids
  end.
(** traverse_range; trie_map_def.inl:1020-1069.  Fuel bounds the recursion,
    which is at most as deep as the longest key. *)
Fixpoint traverse_range (fuel : nat) (es : list entry) (pos : nat) : res (tnode V) :=
  match fuel with
  | O => Undef
  | S f => traverse_loop (fun r => traverse_range f r (S pos)) pos es [] 0 false None []
  end.
(** packed_trie_map(entries); trie_map_def.inl:1305-1338 (without
    MDDS_TRIE_MAP_DEBUG) *)
Definition pack_table (es : list entry) : res pmap :=
  let* root := traverse_range (S (S (list_max (map (fun e => length (fst e)) es)))) es O in
  compact root.

(** packed_trie_map(); trie_map_def.inl:1294-1302 *)
Definition pdefault : pmap := PM [] [1; 0; 0].
(** packed_trie_map(packed_trie_map&&): the new map and what is left of the
    old one; trie_map_def.inl:1388-1395 *)
Definition pmove (m : pmap) : pmap * pmap := (m, PM [] [1; 0; 0]).
(** size and empty; trie_map_def.inl:1586-1596 *)
Definition psize (m : pmap) : nat := length (store m).
(** empty; trie_map_def.inl:1586-1590 *)
Definition pempty (m : pmap) : bool := match store m with [] => true | _ => false end.

(** ** Searching *)

(** find_child_pos; trie_map_def.inl:217-262.  It is only called with at least
    one child; fuel bounds the loop. *)
Fixpoint fcp_loop (fuel : nat) (b : list Z) (first low high : nat) (c : Z) : res (option nat) :=
  match fuel with
  | O => Undef
  | S f =>
      if (low <=? high)%nat then
        let i := ((low + high) / 2)%nat in
        let child_pos := (first + i * 2)%nat in
        let* k := rd b child_pos in
        let node_key := cast_unit k in
        if c =? node_key then Ok (Some child_pos)
        else if (low =? high)%nat then Ok None
        else if (high - low =? 1)%nat then
          if (i =? low)%nat then fcp_loop f b first high high c else fcp_loop f b first low low c
        else if c <? node_key then fcp_loop f b first low i c
        else fcp_loop f b first i high c
      else Ok None
  end.
(** find_child_pos, with the initial bounds; trie_map_def.inl:217-226 *)
Definition find_child_pos (b : list Z) (first n : nat) (c : Z) : res (option nat) :=
  match n with
  | O => Undef
  | S h => fcp_loop (S n) b first O h c
  end.

(** stack_item: node_pos, child_pos and child_end; trie_map.hpp:561-590.  The
    value_store member is kept once, in the iterator. *)
Record pitem := PIt { node_pos : nat; child_pos : nat; child_end : nat }.
(** a node with child_pos at its first child: the reading sequence that occurs
    at trie_map_def.inl:273-278, 1462-1471, 1497-1507, trie_map_itr.hpp:493-502,
    755-766 *)
Definition open_node (b : list Z) (p : nat) : res pitem :=
  let* n := rd b (p + 1) in
  let* e := fwd b (p + 2) n in
  Ok (PIt p (p + 2) e).

(** find_prefix_node with the pushed stack items; trie_map_def.inl:264-312.
    The item of nullptrs is [None]; the head of the stack is back(). *)
Fixpoint pfind_prefix_node (b : list Z) (p : nat) (prefix : list Z) (st : list (option pitem))
  : res (option nat * list (option pitem)) :=
  match prefix with
  | [] => let* it := open_node b p in Ok (Some p, Some it :: st)
  | c :: prefix' =>
      let* index_size := rd b (p + 1) in
      let n := Z.to_nat (index_size / 2) in
      if index_size / 2 =? 0 then Ok (None, None :: st)
      else
        let* child_end := fwd b (p + 2) index_size in
        let* r := find_child_pos b (p + 2) n c in
        match r with
        | Some cp =>
            let* offset := rd b (cp + 1) in
            let* pc := back p offset in
            pfind_prefix_node b pc prefix' (Some (PIt p cp child_end) :: st)
        | None => Ok (None, None :: st)
        end
  end.

(** packed_iterator_base; trie_map_itr.hpp:471-476.  [pvs]: m_value_store is
    not null. *)
Record piter := PI { pvs : bool; pstk : list pitem; pbuf : list Z; pcur : Z; pty : itype }.

(** get_root_stack; trie_map_def.inl:1487-1510 *)
Definition root_pos (m : pmap) : res nat :=
  let* o := rd (pk m) O in
  fwd (pk m) O o.
(** the root's stack item; trie_map_def.inl:1487-1510 *)
Definition root_item (m : pmap) : res pitem :=
  let* p := root_pos m in open_node (pk m) p.

(** cend; trie_map_def.inl:1479-1485 *)
Definition pend (m : pmap) : res piter :=
  let* it := root_item m in
  Ok (PI true [PIt (node_pos it) (child_end it) (child_end it)] [] null_value T_end).

(** push_child_node_to_stack; trie_map_itr.hpp:482-503 *)
Definition push_child (b : list Z) (st : list pitem) (buf : list Z) (cp : nat) : res (list pitem * list Z) :=
  match st with
  | [] => Undef
  | it :: _ =>
      let* c := rd b cp in
      let* offset := rd b (cp + 1) in
      let* p := back (node_pos it) offset in
      let* it' := open_node b p in
      Ok (it' :: st, buf ++ [cast_unit c])
  end.

(** [while (pos == null_value) push_child_node_to_stack(...)];
    trie_map_def.inl:1469-1475, trie_map_itr.hpp:806-812.  Fuel: the size of
    the buffer. *)
Fixpoint pdescend_first (fuel : nat) (b : list Z) (st : list pitem) (buf : list Z)
  : res (list pitem * list Z * Z) :=
  match fuel with
  | O => Undef
  | S f =>
      match st with
      | [] => Undef
      | it :: _ =>
          let* v := rd b (node_pos it) in
          if v =? null_value then
            let* (st', buf') := push_child b st buf (child_pos it) in
            pdescend_first f b st' buf'
          else Ok (st, buf, v)
      end
  end.

(** cbegin; trie_map_def.inl:1439-1477 *)
Definition pbegin (m : pmap) : res piter :=
  let* it := root_item m in
  if (child_pos it =? child_end it)%nat then Ok (PI true [it] [] null_value T_end)
  else
    let* (st, buf) := push_child (pk m) [it] [] (child_pos it) in
    let* (st', buf', v) := pdescend_first (length (pk m)) (pk m) st buf in
    Ok (PI true st' buf' v T_normal).

(** the key from the stack items below back(); trie_map_def.inl:1549-1553 *)
Fixpoint stack_units (b : list Z) (st : list pitem) : res (list Z) :=
  match st with
  | [] => Ok []
  | it :: st' =>
      let* c := rd b (child_pos it) in
      let* k := stack_units b st' in
      Ok (k ++ [cast_unit c])
  end.
(** the items of a stack without nullptr items (reading through one is
    undefined); trie_map_def.inl:1549-1553 *)
Fixpoint somes {A} (l : list (option A)) : res (list A) :=
  match l with
  | [] => Ok []
  | None :: _ => Undef
  | Some a :: l' => let* r := somes l' in Ok (a :: r)
  end.

(** find; trie_map_def.inl:1512-1557 *)
Definition pfind (m : pmap) (key : list Z) : res piter :=
  if pempty m then pend m
  else
    let* root := root_pos m in
    let* (_, st) := pfind_prefix_node (pk m) root key [] in
    match st with
    | Some it :: st' =>
        let* v := rd (pk m) (node_pos it) in
        if v =? null_value then pend m
        else
          let* st'' := somes st' in
          let* buf := stack_units (pk m) st'' in
          Ok (PI true (it :: st'') buf v T_normal)
    | _ => pend m
    end.

(** packed_search_results: m_value_store (not null), m_node and m_buffer;
    trie_map_itr.hpp:740-754 *)
Record presults := PR { rvs : bool; rnode : option nat; rbuf : list Z }.
(** prefix_search; trie_map_def.inl:1559-1584 *)
Definition pprefix_search (m : pmap) (prefix : list Z) : res presults :=
  if pempty m then Ok (PR true None [])
  else
    let* root := root_pos m in
    let* (node, _) := pfind_prefix_node (pk m) root prefix [] in
    Ok (PR true node prefix).
(** packed_search_results(const packed_search_results&) and operator=, neither
    of which transfers m_value_store; trie_map_itr.hpp:770-795 *)
Definition presults_copy (r : presults) : presults := PR false (rnode r) (rbuf r).
(** packed_iterator_base(empty_iterator_type); trie_map_itr.hpp:534-536 *)
Definition empty_piter : piter := PI false [] [] null_value T_empty.
(** packed_search_results::begin; trie_map_itr.hpp:797-816 *)
Definition prbegin (m : pmap) (r : presults) : res piter :=
  match rnode r with
  | None => Ok empty_piter
  | Some p =>
      let* it := open_node (pk m) p in
      let* (st, buf, v) := pdescend_first (length (pk m)) (pk m) [it] (rbuf r) in
      Ok (PI (rvs r) st buf v T_normal)
  end.
(** packed_search_results::end; trie_map_itr.hpp:818-829 *)
Definition prend (m : pmap) (r : presults) : res piter :=
  match rnode r with
  | None => Ok empty_piter
  | Some p =>
      let* it := open_node (pk m) p in
      Ok (PI (rvs r) [PIt p (child_end it) (child_end it)] (rbuf r) null_value T_end)
  end.

(** ** Iterators *)

(** stack_item::operator==; trie_map.hpp:575-579 (iterators of one map) *)
Definition pitem_eqb (x y : pitem) : bool :=
  (node_pos x =? node_pos y)%nat && (child_pos x =? child_pos y)%nat && (child_end x =? child_end y)%nat.
(** operator==; trie_map_itr.hpp:552-561 *)
Definition piter_eqb (x y : piter) : res bool :=
  match pty x, pty y with
  | T_empty, T_empty => Ok true
  | T_normal, T_normal | T_end, T_end =>
      match pstk x, pstk y with
      | a :: _, c :: _ => Ok (Bool.eqb (pvs x) (pvs y) && pitem_eqb a c)
      | _, _ => Undef
      end
  | _, _ => Ok false
  end.
(** operator* and operator->; trie_map_itr.hpp:563-575 *)
Definition piter_deref (m : pmap) (x : piter) : res (list Z * V) :=
  if pvs x then let* v := deref (nthZ (store m) (pcur x)) in Ok (pbuf x, v) else Undef.

(** the inner while(true) of operator++; trie_map_itr.hpp:590-621.  [inl]: the
    end was reached; [inr]: moved down to an unvisited child. *)
Fixpoint pgo_up (b : list Z) (top : pitem) (rest : list pitem) (buf : list Z)
  : res ((list pitem * list Z) + (list pitem * list Z)) :=
  match rest with
  | [] => Ok (inl ([top], buf))
  | it :: rest' =>
      let it' := PIt (node_pos it) (child_pos it + 2) (child_end it) in
      if (child_pos it' =? child_end it')%nat then pgo_up b it' rest' (removelast buf)
      else let* r := push_child b (it' :: rest') (removelast buf) (child_pos it') in Ok (inr r)
  end.
(** the do-while of operator++; trie_map_itr.hpp:581-635 *)
Fixpoint pinc_loop (fuel : nat) (b : list Z) (index_size : Z) (st : list pitem) (buf : list Z)
  : res ((list pitem * list Z) + (list pitem * list Z * Z)) :=
  match fuel with
  | O => Undef
  | S f =>
      match st with
      | [] => Undef
      | top :: rest =>
          let* r :=
            if index_size =? 0 then pgo_up b top rest buf
            else let* r := push_child b st buf (child_pos top) in Ok (inr r) in
          match r with
          | inl e => Ok (inl e)
          | inr (st', buf') =>
              match st' with
              | [] => Undef
              | si :: _ =>
                  let* v := rd b (node_pos si) in
                  let* n := rd b (node_pos si + 1) in
                  if v =? null_value then pinc_loop f b n st' buf'
                  else Ok (inr (st', buf', v))
              end
          end
      end
  end.
(** operator++; trie_map_itr.hpp:577-636 *)
Definition piter_inc (m : pmap) (x : piter) : res piter :=
  match pstk x with
  | [] => Undef
  | si :: _ =>
      let* n := rd (pk m) (node_pos si + 1) in
      let* r := pinc_loop (length (pk m)) (pk m) n (pstk x) (pbuf x) in
      match r with
      | inl (st, buf) => Ok (PI (pvs x) st buf (pcur x) T_end)
      | inr (st, buf, v) => Ok (PI (pvs x) st buf v (pty x))
      end
  end.

(** descend_to_previous_leaf_node; trie_map_itr.hpp:505-532: move the child
    position of back() to the previous child and push it, until a leaf *)
Fixpoint pdescend_prev (fuel : nat) (b : list Z) (st : list pitem) (buf : list Z)
  : res (list pitem * list Z) :=
  match fuel with
  | O => Undef
  | S f =>
      match st with
      | [] => Undef
      | si :: rest =>
          let* cp := back (child_pos si) 2 in
          let* offset := rd b (cp + 1) in
          let* c := rd b cp in
          let* p := back (node_pos si) offset in
          let* n := rd b (p + 1) in
          let* e := fwd b (p + 2) n in
          let st' := PIt p e e :: PIt (node_pos si) cp (child_end si) :: rest in
          if n =? 0 then Ok (st', buf ++ [cast_unit c])
          else pdescend_prev f b st' (buf ++ [cast_unit c])
      end
  end.
(** value slot of back(); trie_map_itr.hpp:627-629, 648-650 *)
Definition top_value (b : list Z) (st : list pitem) : res Z :=
  match st with [] => Undef | si :: _ => rd b (node_pos si) end.

(** the do-while of the leaf branch of operator--; trie_map_itr.hpp:675-700 *)
Fixpoint pdec_leaf (fuel : nat) (b : list Z) (st : list pitem) (buf : list Z)
  : res (list pitem * list Z * Z) :=
  match fuel with
  | O => Undef
  | S f =>
      match tl st with
      | [] => Undef
      | si :: rest =>
          let buf1 := removelast buf in
          let* v := rd b (node_pos si) in
          let* _ := rd b (node_pos si + 1) in
          let* (st', buf', v') :=
            if (child_pos si =? node_pos si + 2)%nat then Ok (si :: rest, buf1, v)
            else
              let* (st', buf') := pdescend_prev (length b) b (si :: rest) buf1 in
              let* v' := top_value b st' in Ok (st', buf', v') in
          if v' =? null_value then pdec_leaf f b st' buf' else Ok (st', buf', v')
      end
  end.
(** the do-while of the last branch of operator--; trie_map_itr.hpp:710-722 *)
Fixpoint pdec_inner (fuel : nat) (b : list Z) (st : list pitem) (buf : list Z)
  : res (list pitem * list Z * Z) :=
  match fuel with
  | O => Undef
  | S f =>
      match tl st with
      | [] => Undef
      | si :: rest =>
          let buf1 := removelast buf in
          let* v := rd b (node_pos si) in
          let* (st', buf', v') :=
            match rest with
            | [] =>
                let* (st', buf') := pdescend_prev (length b) b (si :: rest) buf1 in
                let* v' := top_value b st' in Ok (st', buf', v')
            | _ => Ok (si :: rest, buf1, v)
            end in
          if v' =? null_value then pdec_inner f b st' buf' else Ok (st', buf', v')
      end
  end.
(** operator--; trie_map_itr.hpp:645-728 *)
Definition piter_dec (m : pmap) (x : piter) : res piter :=
  let b := pk m in
  match pstk x with
  | [] => Undef
  | si :: rest =>
      let* v := rd b (node_pos si) in
      let* n := rd b (node_pos si + 1) in
      match pty x, v =? null_value, rest with
      | T_end, false, _ => Ok (PI (pvs x) (pstk x) (pbuf x) v T_normal)
      | _, _, [] =>
          let* (st, buf) := pdescend_prev (length b) b (pstk x) (pbuf x) in
          let* v' := top_value b st in
          Ok (PI (pvs x) st buf v' T_normal)
      | ty, _, _ =>
          let* (st, buf, v') :=
            if n =? 0 then pdec_leaf (length b) b (pstk x) (pbuf x)
            else pdec_inner (length b) b (pstk x) (pbuf x) in
          Ok (PI (pvs x) st buf v' ty)
      end
  end.

(** [for (it = first; it != last; ++it) push_back( *it )] by a caller, over
    operator!=, operator* and operator++; trie_map_itr.hpp:552-636 *)
Fixpoint pwalk (fuel : nat) (m : pmap) (it last : piter) : res (list (list Z * V)) :=
  match fuel with
  | O => Undef
  | S f =>
      let* e := piter_eqb it last in
      if e then Ok []
      else
        let* a := piter_deref m it in
        let* it' := piter_inc m it in
        let* l := pwalk f m it' last in
        Ok (a :: l)
  end.
(** the entries seen by a caller stepping back [n] times with operator--;
    trie_map_itr.hpp:645-728 *)
Fixpoint pwalk_back (n : nat) (m : pmap) (it : piter) : res (list (list Z * V)) :=
  match n with
  | O => Ok []
  | S n' =>
      let* it' := piter_dec m it in
      let* a := piter_deref m it' in
      let* l := pwalk_back n' m it' in
      Ok (a :: l)
  end.

(** loop of operator==; trie_map_def.inl:1417-1423.  [fuel] bounds the walk of
    the left map. *)
Fixpoint peq_loop (veqb : V -> V -> bool) (fuel : nat) (m1 m2 : pmap) (l r e : piter) : res bool :=
  match fuel with
  | O => Undef
  | S f =>
      let* d := piter_eqb l e in
      if d then Ok true
      else
        let* (k1, v1) := piter_deref m1 l in
        let* (k2, v2) := piter_deref m2 r in
        if negb (key_eqb k1 k2 && veqb v1 v2) then Ok false
        else
          let* l' := piter_inc m1 l in
          let* r' := piter_inc m2 r in
          peq_loop veqb f m1 m2 l' r' e
  end.
(** operator==; trie_map_def.inl:1408-1425 *)
Definition peq (veqb : V -> V -> bool) (m1 m2 : pmap) : res bool :=
  if negb (psize m1 =? psize m2)%nat then Ok false
  else
    let* l := pbegin m1 in
    let* r := pbegin m2 in
    let* e := pend m1 in
    peq_loop veqb (S (S (psize m1))) m1 m2 l r e.

(** ** Node traversal: a node is its position, none for an invalid one *)

(** root_node; trie_map_def.inl:1605-1611 *)
Definition proot_node (m : pmap) : res (option nat) := let* p := root_pos m in Ok (Some p).
(** const_node_type::has_child; trie_map_def.inl:1219-1231 *)
Definition pnode_has_child (m : pmap) (n : option nat) : res bool :=
  match n with None => Ok false | Some p => let* s := rd (pk m) (p + 1) in Ok (0 <? s) end.
(** const_node_type::has_value; trie_map_def.inl:1233-1244 *)
Definition pnode_has_value (m : pmap) (n : option nat) : res bool :=
  match n with None => Ok false | Some p => let* v := rd (pk m) p in Ok (negb (v =? null_value)) end.
(** const_node_type::value; trie_map_def.inl:1246-1256 *)
Definition pnode_value (m : pmap) (n : option nat) : res V :=
  match n with None => Undef | Some p => let* v := rd (pk m) p in deref (nthZ (store m) v) end.
(** const_node_type::child; trie_map_def.inl:1258-1285 *)
Definition pnode_child (m : pmap) (n : option nat) (c : Z) : res (option nat) :=
  match n with
  | None => Ok None
  | Some p =>
      let* s := rd (pk m) (p + 1) in
      if s =? 0 then Ok None
      else
        let* r := find_child_pos (pk m) (p + 2) (Z.to_nat (s / 2)) c in
        match r with
        | Some cp => let* o := rd (pk m) (cp + 1) in let* q := back p o in Ok (Some q)
        | None => Ok None
        end
  end.
(** following a path of units with child(), as a caller does;
    trie_map_def.inl:1258-1285 *)
Fixpoint pnode_path (m : pmap) (n : option nat) (path : list Z) : res (option nat) :=
  match path with
  | [] => Ok n
  | c :: path' => let* n' := pnode_child m n c in pnode_path m n' path'
  end.

(** ** Copying *)

(** handler of the copy constructor: a visited node with a value gets the next
    slot of the new store; trie_map_def.inl:1347-1367 *)
Definition copy_handler (other : pmap) (p : nat) (m : pmap) : res pmap :=
  let* ov := rd (pk m) p in
  if ov =? null_value then Ok m
  else
    let* a := deref (nthZ (store other) ov) in
    Ok (PM (store m ++ [a]) (set_nth p (wrap (Z.of_nat (length (store m)))) (pk m))).

(** traverse_tree with the handler of the copy constructor (move_up, move_down,
    next_child and end do nothing there); trie_map_def.inl:1886-1968.  The
    first loop: descend to a leaf along first children, starting from the
    child slot [cp] of back(). *)
Fixpoint copy_down (fuel : nat) (other : pmap) (st : list pitem) (cp : nat) (m : pmap) : res (list pitem * pmap) :=
  match fuel with
  | O => Undef
  | S f =>
      match st with
      | [] => Undef
      | it :: _ =>
          let* offset := rd (pk m) (cp + 1) in
          let* p := back (node_pos it) offset in
          let* n := rd (pk m) (p + 1) in
          let* m' := copy_handler other p m in
          let* e := fwd (pk m') (p + 2) n in
          let st' := PIt p (p + 2) e :: st in
          if n =? 0 then Ok (st', m') else copy_down f other st' (p + 2) m'
      end
  end.
(** the second loop: up to a node with an unvisited child; none at the end;
    trie_map_def.inl:1939-1964 *)
Fixpoint copy_up (rest : list pitem) : res (option (list pitem * nat)) :=
  match rest with
  | [] => Undef
  | it :: rest' =>
      let it' := PIt (node_pos it) (child_pos it + 2) (child_end it) in
      if negb (child_pos it' =? child_end it')%nat then Ok (Some (it' :: rest', child_pos it'))
      else match rest' with [] => Ok None | _ => copy_up rest' end
  end.
(** the outer loop; trie_map_def.inl:1907-1965 *)
Fixpoint copy_loop (fuel : nat) (other : pmap) (st : list pitem) (cp : nat) (m : pmap) : res pmap :=
  match fuel with
  | O => Undef
  | S f =>
      let* (st', m') := copy_down (length (pk m)) other st cp m in
      let* r := copy_up (tl st') in
      match r with
      | None => Ok m'
      | Some (st'', cp') => copy_loop f other st'' cp' m'
      end
  end.
(** packed_trie_map(const packed_trie_map&); trie_map_def.inl:1346-1386 *)
Definition pcopy (other : pmap) : res pmap :=
  let m := PM [] (pk other) in
  let* it := root_item m in
  let* m' := copy_handler other (node_pos it) m in
  if (child_pos it =? child_end it)%nat then Ok m'
  else copy_loop (length (pk other)) other [it] (child_pos it) m'.

(** ** Saving and loading *)

(** traverse_packed_buffer: the elements passed to the handler, in order;
    trie_map_def.inl:43-74.  [fuel] bounds the loop over the nodes. *)
Fixpoint read_children (b : list Z) (i : nat) (n : nat) : res (list Z) :=
  match n with
  | O => Ok []
  | S n' =>
      let* k := rd b i in
      let* o := rd b (i + 1) in
      let* l := read_children b (i + 2) n' in
      Ok (k :: o :: l)
  end.
(** the loop over the nodes; trie_map_def.inl:50-73 *)
Fixpoint read_nodes (fuel : nat) (b : list Z) (i : nat) : res (list Z) :=
  match fuel with
  | O => Undef
  | S f =>
      if (i <? length b)%nat then
        let* v := rd b i in
        let* n := rd b (i + 1) in
        if n / 2 <=? Z.of_nat (length b) then
          let k := Z.to_nat (n / 2) in
          let* l := read_children b (i + 2) k in
          let* l' := read_nodes f b (i + 2 + 2 * k) in
          Ok (v :: n :: l ++ l')
        else Undef
      else Ok []
  end.
(** traverse_packed_buffer; trie_map_def.inl:43-74 *)
Definition traverse_packed_buffer (b : list Z) : res (list Z) :=
  let* r := rd b O in
  let* l := read_nodes (length b) b 1 in
  Ok (r :: l).

(** a value serializer: variable_size, value_size, write and read;
    trie_map.hpp:65-126.  [sread n bytes] reads a value of [n] bytes from the
    stream and gives the rest of the stream; a read that never returns because
    the stream has ended is [Undef]. *)
Record serializer := SZ {
  svar : bool; ssize : Z; swrite : V -> list Z; sread : Z -> list Z -> res (V * list Z) }.

(** write_variable_size_values_to_ostream: the bytes after seeking back to fill
    in the size; trie_map_def.inl:330-357 *)
Definition write_variable (F : serializer) (vs : list V) : list Z :=
  flat_map (fun v => le_bytes 4 (Z.of_nat (length (swrite F v))) ++ swrite F v) vs.
(** write_fixed_size_values_to_ostream; trie_map_def.inl:359-387 *)
Fixpoint write_fixed_values (F : serializer) (vs : list V) : res (list Z) :=
  match vs with
  | [] => Ok []
  | v :: vs' =>
      if Z.of_nat (length (swrite F v)) =? ssize F then
        let* l := write_fixed_values F vs' in Ok (swrite F v ++ l)
      else Throw E_size
  end.
(** save_state; trie_map_def.inl:1613-1699: the bytes written to the stream *)
Definition save_state (F : serializer) (m : pmap) : res (list Z) :=
  let* values :=
    if svar F then Ok (write_variable F (store m))
    else let* l := write_fixed_values F (store m) in Ok (le_bytes 4 (ssize F) ++ l) in
  let* cells := traverse_packed_buffer (pk m) in
  Ok (le_bytes 2 (if svar F then 1 else 0) ++ le_bytes 4 (Z.of_nat (length (store m))) ++
      values ++ [255] ++ [Z.of_nat (pbytes T)] ++ le_bytes 8 (Z.of_nat (length (pk m))) ++
      flat_map (le_bytes (pbytes T)) cells ++ [255]).

(** is.read(bv.buffer, n): the union and the stream after it.  At the end of
    the stream the bytes not read keep their old values;
    trie_map_def.inl:319-326, 1706-1785 *)
Definition bv_read (n : nat) (bv s : list Z) : list Z * list Z :=
  let got := firstn n s in
  (got ++ skipn (length got) bv, skipn n s).

(** read_variable_size_values_from_istream; trie_map_def.inl:429-451 *)
Fixpoint read_variable (F : serializer) (n : nat) (bv s : list Z) : res (list V * list Z) :=
  match n with
  | O => Ok ([], s)
  | S n' =>
      let (bv1, s1) := bv_read 4 bv s in
      let* (v, s2) := sread F (le_value (firstn 4 bv1)) s1 in
      let* (l, r) := read_variable F n' bv1 s2 in
      Ok (v :: l, r)
  end.
(** the loop of read_fixed_size_values_from_istream; trie_map_def.inl:417-421 *)
Fixpoint read_fixed_values (F : serializer) (n : nat) (s : list Z) : res (list V * list Z) :=
  match n with
  | O => Ok ([], s)
  | S n' =>
      let* (v, s1) := sread F (ssize F) s in
      let* (l, r) := read_fixed_values F n' s1 in
      Ok (v :: l, r)
  end.
(** reading the packed blob; trie_map_def.inl:1755-1760 *)
Fixpoint read_blob (n : nat) (bv s : list Z) : list Z * (list Z * list Z) :=
  match n with
  | O => ([], (bv, s))
  | S n' =>
      let (bv1, s1) := bv_read (pbytes T) bv s in
      let (l, r) := read_blob n' bv1 s1 in
      (le_value (firstn (pbytes T) bv1) :: l, r)
  end.

(** load_state up to the assignment of m_value_store: the values, the union and
    the rest of the stream; trie_map_def.inl:1705-1726.  [bv0] are the 8
    arbitrary bytes of an uninitialised union (each function has its own).
    std::invalid_argument is [Throw E_invalid_arg].  The count is compared with
    the length of the stream first, because reading more values than the stream
    has bytes never returns ([Undef] here); the same for the blob below, which
    would be filled with stale data. *)
Definition load_values (F : serializer) (bv0 s : list Z) : res (list V * list Z * list Z) :=
  let (bv1, s1) := bv_read 2 bv0 s in
  if negb (Bool.eqb (Z.odd (le_value (firstn 2 bv1))) (svar F)) then Throw E_invalid_arg
  else
    let (bv2, s2) := bv_read 4 bv1 s1 in
    let count := le_value (firstn 4 bv2) in
    if Z.of_nat (length s) <? count then Undef
    else
    let* (vals, s3) :=
      if svar F then read_variable F (Z.to_nat count) bv0 s2
      else
        let (bv3, s3) := bv_read 4 bv0 s2 in
        if negb (le_value (firstn 4 bv3) =? ssize F) then Throw E_invalid_arg
        else read_fixed_values F (Z.to_nat count) s3 in
    Ok (vals, bv2, s3).
(** load_state from there to the end: the cells for m_packed;
    trie_map_def.inl:1728-1785.  The handler writes every cell back to where it
    was read. *)
Definition load_blob (total : nat) (bv2 s3 : list Z) : res (list Z) :=
  let (bv4, s4) := bv_read 1 bv2 s3 in
  if negb (le_value (firstn 1 bv4) =? 255) then Throw E_invalid_arg
  else
    let (bv5, s5) := bv_read 1 bv4 s4 in
    if negb (le_value (firstn 1 bv5) =? Z.of_nat (pbytes T)) then Throw E_invalid_arg
    else
      let (bv6, s6) := bv_read 8 bv5 s5 in
      let n := le_value (firstn 8 bv6) in
      if Z.of_nat total <? n then Undef
      else
      let '(cells, (bv7, s7)) := read_blob (Z.to_nat n) bv6 s6 in
      let (bv8, s8) := bv_read 1 bv7 s7 in
      if negb (le_value (firstn 1 bv8) =? 255) then Throw E_invalid_arg
      else
        let* _ := traverse_packed_buffer cells in
        Ok cells.
(** load_state; trie_map_def.inl:1701-1785 *)
Definition load_state (F : serializer) (bv0 s : list Z) : res pmap :=
  let* (vals, bv2, s3) := load_values F bv0 s in
  let* cells := load_blob (length s) bv2 s3 in
  Ok (PM vals cells).
(** the map [old] after load_state has thrown: m_value_store is assigned before
    the rest of the stream is looked at; trie_map_def.inl:1726-1760 *)
Definition load_left (F : serializer) (bv0 : list Z) (old : pmap) (s : list Z) : pmap :=
  match load_values F bv0 s with
  | Ok (vals, _, _) => PM vals (pk old)
  | _ => old
  end.
End PACK.
Arguments pmap V : clear implicits.
Arguments serializer V : clear implicits.

(** numeric_value_serializer<T>; trie_map_def.inl:481-520, trie_map.hpp:65-76.
    A number is given by its object representation, an integer in
    [0, 256^size). *)
Definition numeric_read (size : nat) (n : Z) (s : list Z) : res (Z * list Z) :=
  if (length s <? size)%nat then Undef else Ok (le_value (firstn size s), skipn size s).
(** its write and value_size; trie_map_def.inl:481-520, trie_map.hpp:65-76 *)
Definition numeric_serializer (size : nat) : serializer Z :=
  SZ false (Z.of_nat size) (le_bytes size) (numeric_read size).
(** numeric_sequence_value_serializer; trie_map_def.inl:522-549,
    trie_map.hpp:89-104 *)
Fixpoint numeric_seq_read (size : nat) (count : nat) (s : list Z) : res (list Z * list Z) :=
  match count with
  | O => Ok ([], s)
  | S c =>
      let* (v, s1) := numeric_read size (Z.of_nat size) s in
      let* (l, s2) := numeric_seq_read size c s1 in
      Ok (v :: l, s2)
  end.
(** with its write; trie_map_def.inl:522-549 *)
Definition numeric_seq_serializer (size : nat) : serializer (list Z) :=
  SZ true 0 (flat_map (le_bytes size))
    (fun n s => if Z.of_nat (length s) <? n then Undef
                else numeric_seq_read size (Z.to_nat (n / Z.of_nat size)) s).
(** variable_value_serializer<std::string>; trie_map_def.inl:551-573,
    trie_map.hpp:78-87 *)
Definition string_serializer : serializer (list Z) :=
  SZ true 0 (fun v => v)
    (fun n s => if Z.of_nat (length s) <? n then Undef
                else Ok (firstn (Z.to_nat n) s, skipn (Z.to_nat n) s)).
