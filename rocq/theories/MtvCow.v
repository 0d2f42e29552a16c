(** Model of mdds::mtv::soa::multi_type_vector with Traits::enable_cow: several
    containers that may share their element blocks.

    Source: /repo/include/mdds/multi_type_vector/soa/main_def.inl and
    soa/main.hpp:1545-1590.

    Simplifications:
    - A container is an entry of a list; the program names it by its index.
    - std::shared_ptr is modelled by its contract: the shared object is destroyed
      when the last container that refers to it lets go.
    - Element blocks have addresses; a call on one container acts on memory, so a
      block of the same address seen from another container changes with it, and a
      block that the call drops is dead for everybody.  Using a container that
      holds a dead block is [Undef].
    - The single-container calls are those of MtvModel.v (what they do on a
      container that is not shared).
    - Not modelled: transfer and range swap between containers, execution policies,
      emplace_back (same as push_back), exceptions from allocation. *)
From Coq Require Import List ZArith Lia Bool.
From Verif Require Import Base MtvModel MtvModel2 MtvSpec.
Import ListNotations.
Open Scope nat_scope.

Section Cow.
Context {V : Type}.
Variable cat : V -> nat.
Variable managed : nat -> bool.
(** clone_block of one value, types.hpp:188-277: the copy constructor of a copyable
    block's value, or the user's clone_value. *)
Variable clone : V -> V.
(** Block types for which clone_block does not throw, types.hpp:194-206. *)
Variable cloneable : nat -> bool.
(** block_funcs::is_copyable, used by soa/main_def.inl:498. *)
Variable copyable : nat -> bool.
Notation eblk := (@eblk V).
Notation blk := (@blk V).
Notation st := (@st V).

(** A container: the fields of MtvModel.v plus m_cow_store, soa/main.hpp:1575-1586;
    [store] is the number of the shared object it points to. *)
Record vec := VEC { body : st; store : option nat }.

(** All the containers of a program ([None]: destroyed) and all the
    shared_element_blocks objects, soa/main.hpp:1551-1560 ([None]: destroyed).
    Not in the code: [dead] addresses of deleted blocks, [gone] heap objects deleted
    by shared objects or destroyed containers, [wtag] a supply of addresses. *)
Record world := WD {
  vecs : list (option vec); stores : list (option (list eblk));
  dead : list (nat * nat); gone : list V; wtag : nat }.

(** The non-null entries of element_blocks, e.g. soa/main_def.inl:541-543. *)
Definition blocks (s : st) : list eblk :=
  flat_map (fun b => match bd b with Some e => [e] | None => [] end) (bl s).
(** Their addresses; pointers of soa/main.hpp:92. *)
Definition addrs (l : list eblk) : list (nat * nat) := map eid l.
(** Comparison of pointers (C++ built-in; soa/main.hpp:92). *)
Definition same_addr (a b : nat * nat) : bool := (fst a =? fst b) && (snd a =? snd b).
(** Membership of a pointer in a set (helper; soa/main.hpp:92). *)
Definition mem (a : nat * nat) (l : list (nat * nat)) : bool := existsb (same_addr a) l.

(** Heap objects owned by blocks, types.hpp:841-844, 900-903. *)
Definition owned (l : list eblk) : list V := flat_map (fun e => own managed (ecat e) (ev e)) l.

(** The container named [x], before a call on it, e.g. soa/main_def.inl:900; a call on
    a destroyed container or one with a dead block is undefined. *)
Definition fetch (x : nat) (w : world) : res vec :=
  match nth_error (vecs w) x with
  | Some (Some v) =>
      if existsb (fun a => mem a (dead w)) (addrs (blocks (body v))) then Undef else Ok v
  | _ => Undef
  end.

(** Update of one container (helper; assignment to the members of soa/main.hpp:1575-1586). *)
Definition put (x : nat) (v : option vec) (w : world) : world :=
  WD (set_nth x v (vecs w)) (stores w) (dead w) (gone w) (wtag w).
(** A new container (helper; constructors soa/main_def.inl:384-527). *)
Definition add (v : vec) (w : world) : world :=
  WD (vecs w ++ [Some v]) (stores w) (dead w) (gone w) (wtag w).
(** Take a fresh address tag (operator new; e.g. types.hpp:508-511). *)
Definition tick (w : world) : world :=
  WD (vecs w) (stores w) (dead w) (gone w) (S (wtag w)).

(** What memory shows for a block after a call turned the blocks [old] of some
    container into [new] (C++ memory; helper for soa/main.hpp:92). *)
Definition alias (old new : list eblk) (e : eblk) : eblk :=
  if mem (eid e) (addrs old) then
    match List.find (fun e' => same_addr (eid e') (eid e)) new with
    | Some e' => e'
    | None => e
    end
  else e.
(** The same for all the blocks of a container (soa/main.hpp:92). *)
Definition alias_st (old new : list eblk) (s : st) : st :=
  with_bl (map (fun b => BK (bp b) (bs b) (option_map (alias old new) (bd b))) (bl s)) s.

(** The state [s'] of container [x] after a call, and what the other containers and
    the shared objects see of it (C++ memory; e.g. soa/main_def.inl:900-935). *)
Definition write (x : nat) (v : vec) (s' : st) (w : world) : world :=
  let old := blocks (body v) in
  let new := blocks s' in
  WD (set_nth x (Some (VEC s' (store v)))
        (map (option_map (fun u => VEC (alias_st old new (body u)) (store u))) (vecs w)))
     (map (option_map (map (alias old new))) (stores w))
     (dead w ++ filter (fun a => negb (mem a (addrs new))) (addrs old))
     (gone w) (wtag w).

(** A container refers to shared object [h] (std::shared_ptr use count;
    soa/main.hpp:1585-1586). *)
Definition uses (h : nat) (v : option vec) : bool :=
  match v with
  | Some v => match store v with Some k => k =? h | None => false end
  | None => false
  end.

(** m_cow_store.reset() or destruction of a shared_ptr: the last user destroys the
    shared object, soa/main.hpp:1555-1559, which deletes the blocks. *)
Definition let_go (h : nat) (w : world) : res world :=
  if existsb (uses h) (vecs w) then Ok w
  else match nth_error (stores w) h with
       | Some (Some es) =>
           if existsb (fun a => mem a (dead w)) (addrs es) then Undef
           else Ok (WD (vecs w) (set_nth h None (stores w)) (dead w ++ addrs es)
                       (gone w ++ owned es) (wtag w))
       | _ => Undef
       end.

(** Fire element_block_released for all blocks, soa/main_def.inl:541-543, 1519-1521. *)
Definition fire_released (s : st) : st :=
  ST (bl s) (cs s) (nid s) (tag s) (acq s) (rel s ++ held (bl s)) (freed s).

(** share(), soa/main_def.inl:551-567: the number of the shared object. *)
Definition share (x : nat) (v : vec) (w : world) : nat * world :=
  match store v with
  | Some h => (h, w)
  | None =>
      let h := length (stores w) in
      (h, WD (set_nth x (Some (VEC (body v) (Some h))) (vecs w))
             (stores w ++ [Some (blocks (body v))])
             (dead w) (gone w) (wtag w))
  end.

(** The container built by the copy or clone constructor, soa/main_def.inl:455-515: same
    positions, sizes and block pointers, acquired events for the blocks. *)
Definition borrow (h : nat) (s : st) : vec :=
  VEC (ST (bl s) (cs s) 0 0 (held (bl s)) [] []) (Some h).

(** clone(), soa/main_def.inl:455-484, 622-637. *)
Definition clone_vec (x : nat) (w : world) : res (world * option exn) :=
  let* v := fetch x w in
  let (h, w) := share x v w in
  Ok (add (borrow h (body v)) w, None).

(** Copy constructor, soa/main_def.inl:487-515. *)
Definition copy_vec (x : nat) (w : world) : res (world * option exn) :=
  let* v := fetch x w in
  if existsb (fun e => negb (copyable (ecat e))) (blocks (body v))
  then Ok (w, Some E_element_block)
  else
    let (h, w) := share x v w in
    Ok (add (borrow h (body v)) w, None).

(** What the move constructor leaves behind, soa/main_def.inl:518-527; m_cur_size of the
    source keeps its value. *)
Definition moved_out (v : vec) : vec :=
  VEC (snd (move_of (body v))) None.
(** Move constructor, soa/main_def.inl:518-527. *)
Definition move_vec (x : nat) (w : world) : res (world * option exn) :=
  let* v := fetch x w in
  Ok (add v (put x (Some (moved_out v)) w), None).

(** detach_impl(), soa/main_def.inl:577-620: all the blocks are cloned; if one cannot be
    cloned nothing changes and the exception goes to the caller. *)
Definition detach (x : nat) (w : world) : res (world * option exn) :=
  let* v := fetch x w in
  match store v with
  | None => Ok (w, None)
  | Some h =>
      let s := body v in
      match copy_bl clone cloneable (wtag w) 0 (bl s) with
      | Ok l =>
          let s' := ST l (cs s) (nid s) (tag s) (acq s ++ held l) (rel s ++ held (bl s)) (freed s) in
          let w := WD (set_nth x (Some (VEC s' None)) (vecs w)) (stores w) (dead w) (gone w)
                      (S (wtag w)) in
          let* w := let_go h w in
          Ok (w, None)
      | Throw e => Ok (w, Some e)
      | Undef => Undef
      end
  end.

(** Calls of the release family, soa/main_def.inl:3841-4061. *)
Definition is_release (o : @op V) : bool :=
  match o with
  | ORelease _ _ | OReleaseRange _ _ _ | OReleaseAll => true
  | _ => false
  end.

(** What a call does before it detaches: return or throw at once.
    calc_input_end_position, util.hpp:171-186 with soa/main_def.inl:990-993, 1040-1042;
    erase soa/main_def.inl:1390-1391; insert_empty soa/main_def.inl:1426-1428, 1470-1472. *)
Definition early (o : @op V) (s : st) : option (option exn) :=
  match o with
  | OSetRange _ pos vs =>
      match vs with
      | [] => Some None
      | _ => if cs s <=? pos + length vs - 1 then Some (Some E_out_of_range) else None
      end
  | OErase a b => if b <? a then Some (Some E_out_of_range) else None
  | OInsertEmpty _ _ n => if n =? 0 then Some None else None
  | _ => None
  end.

(** New blocks of a call get addresses that were never used (operator new; helper for
    types.hpp:508-511). *)
Definition retag (t : nat) (s : st) : st :=
  ST (bl s) (cs s) 0 t (acq s) (rel s) (freed s).

(** clear() on a sharing container, soa/main_def.inl:1513-1528. *)
Definition clear_shared (x h : nat) (v : vec) (w : world) : res world :=
  let s := fire_released (body v) in
  let_go h (put x (Some (VEC (with_cs 0 (with_bl [] s)) None)) w).

(** The body of a call on a container that is not shared, soa/main_def.inl:904-935 and
    alike; a call that throws has not changed anything. *)
Definition plain_op (x : nat) (o : @op V) (w : world) : res (world * option exn) :=
  let* v := fetch x w in
  match exec cat managed o (retag (wtag w) (body v)) with
  | Ok s' => Ok (write x v s' (tick w), None)
  | Throw e => Ok (w, Some e)
  | Undef => Undef
  end.

(** One of the calls of MtvSpec.v on container [x]: release calls refuse
    (soa/main_def.inl:3845-3849 and alike), clear lets go (soa/main_def.inl:1513-1528), the
    others detach first (soa/main_def.inl:904, 947, 994, 1043, 1081, 1115, 1133, 1170, 1215,
    1358, 1375, 1393, 1430, 1474, 5063). *)
Definition vec_op (x : nat) (o : @op V) (w : world) : res (world * option exn) :=
  let* v := fetch x w in
  match early o (body v) with
  | Some r => Ok (w, r)
  | None =>
    match store v with
    | None => plain_op x o w
    | Some h =>
        if is_release o then Ok (w, Some E_shared_block)
        else
          match o with
          | OClear => let* w := clear_shared x h v w in Ok (w, None)
          | _ =>
              let* (w, e) := detach x w in
              match e with
              | Some _ => Ok (w, e)
              | None => plain_op x o w
              end
          end
    end
  end.

(** Destructor, soa/main_def.inl:530-549; [x] names the container. *)
Definition destroy_vec (x : nat) (w : world) : res (world * option exn) :=
  let* v := fetch x w in
  match store v with
  | Some h =>
      let w := put x None w in
      let w := WD (vecs w) (stores w) (dead w) (gone w ++ freed (body v)) (wtag w) in
      let* w := let_go h w in
      Ok (w, None)
  | None =>
      let* s' := clear managed (body v) in
      let w := write x v s' w in
      let w := put x None w in
      Ok (WD (vecs w) (stores w) (dead w) (gone w ++ freed s') (wtag w), None)
  end.

(** swap(other), soa/main_def.inl:5429-5437. *)
Definition swap_vec (x y : nat) (w : world) : res (world * option exn) :=
  let* a := fetch x w in
  let* b := fetch y w in
  Ok (put y (Some a) (put x (Some b) w), None).

(** Copy assignment, soa/main_def.inl:5540-5547: a temporary (the last entry), swapped and
    destroyed. *)
Definition assign_vec (x y : nat) (w : world) : res (world * option exn) :=
  let* _ := fetch x w in
  let* (w, e) := copy_vec y w in
  match e with
  | Some _ => Ok (w, e)
  | None =>
      let t := length (vecs w) - 1 in
      let* (w, _) := swap_vec x t w in
      destroy_vec t w
  end.

(** Move assignment, soa/main_def.inl:5550-5558. *)
Definition move_assign_vec (x y : nat) (w : world) : res (world * option exn) :=
  let* _ := fetch x w in
  let* (w, _) := move_vec y w in
  let t := length (vecs w) - 1 in
  let* (w, _) := swap_vec x t w in
  destroy_vec t w.

(** multi_type_vector(init_size), soa/main_def.inl:402-413. *)
Definition make_vec (n : nat) (w : world) : res (world * option exn) :=
  Ok (tick (add (VEC (mk_size (wtag w) n) None) w), None).
(** multi_type_vector(init_size, begin, end), soa/main_def.inl:434-453. *)
Definition make_range (n : nat) (vs : list V) (w : world) : res (world * option exn) :=
  match mk_range cat (wtag w) n vs with
  | Ok s => Ok (tick (add (VEC s None) w), None)
  | Throw e => Ok (w, Some e)
  | Undef => Undef
  end.

(** get(pos), soa/main_def.inl:661-681. *)
Definition vec_get (x pos : nat) (w : world) : res (option V) :=
  let* v := fetch x w in get pos (body v).
(** size(), soa/main_def.inl:3797-3802. *)
Definition vec_size (x : nat) (w : world) : res nat :=
  let* v := fetch x w in Ok (size (body v)).

(** No containers yet (start of a program; soa/main_def.inl:384). *)
Definition nothing : world := WD [] [] [] [] 0.

End Cow.
