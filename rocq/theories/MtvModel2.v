(** Model of mdds::mtv::soa::multi_type_vector, second part: constructors, copy,
    move, assignment, whole-container swap, comparison, position objects.

    Same sources and simplifications as MtvModel.v. *)
From Coq Require Import List ZArith Lia Bool.
From Verif Require Import Base MtvModel.
Import ListNotations.

Section Mtv2.
Context {V : Type}.
Variable cat : V -> nat.
(** operator== of stored values (block operator==, types.hpp:609-612). *)
Variable veq : V -> V -> bool.
(** Copy of a stored value: the copy constructor of an unmanaged value, a new heap
    object for a managed one (types.hpp:932-943). *)
Variable dup : V -> V.
(** Blocks derived from copyable_element_block, types.hpp:685-719. *)
Variable copyable : nat -> bool.
Notation eblk := (@eblk V).
Notation blk := (@blk V).
Notation st := (@st V).

(** multi_type_vector(), soa/main_def.inl:384-387; [g] is the address tag of the container. *)
Definition mk_empty (g : nat) : st := ST [] 0 0 g [] [] [].

(** multi_type_vector(init_size), soa/main_def.inl:402-413. *)
Definition mk_size (g n : nat) : st :=
  if n =? 0 then mk_empty g else ST [BK 0 n None] n 0 g [] [] [].

(** multi_type_vector(init_size, value), soa/main_def.inl:417-430 (value not managed: the
    n copies of a managed pointer would own the same object). *)
Definition mk_fill (g n : nat) (v : V) : st :=
  if n =? 0 then mk_empty g
  else ST [BK 0 n (Some (EB (g, 0) (cat v) (repeat v n)))] n 1 g [((g, 0), cat v)] [] [].

(** multi_type_vector(init_size, begin, end), soa/main_def.inl:434-453. *)
Definition mk_range (g n : nat) (vs : list V) : res st :=
  if n =? 0 then Ok (mk_empty g)
  else if negb (n =? length vs) then Throw E_invalid_arg
  else match vs with
       | [] => Undef
       | v0 :: _ =>
           Ok (ST [BK 0 n (Some (EB (g, 0) (cat v0) vs))] n 1 g [((g, 0), cat v0)] [] [])
       end.

(** copy_block on one block, types.hpp:710-714, 748-751; a new address. *)
Definition copy_data (i : nat * nat) (e : eblk) : res eblk :=
  if copyable (ecat e) then Ok (EB i (ecat e) (map dup (ev e))) else Throw E_element_block.

(** copy_blocks, soa/main_def.inl:42-68. *)
Fixpoint copy_bl (g k : nat) (l : list blk) : res (list blk) :=
  match l with
  | [] => Ok []
  | b :: t =>
      let* d := match bd b with
                | None => Ok None
                | Some e => let* e' := copy_data (g, k) e in Ok (Some e')
                end in
      let* t' := copy_bl g (S k) t in
      Ok (BK (bp b) (bs b) d :: t')
  end.

(** The blocks with data, in slot order: the loop over element_blocks that reports
    them, soa/main_def.inl:506-510. *)
Definition held (l : list blk) : list ((nat * nat) * nat) :=
  flat_map (fun b => match bd b with Some e => [(eid e, ecat e)] | None => [] end) l.

(** Copy constructor without copy-on-write, soa/main_def.inl:487-515. *)
Definition copy_of (g : nat) (s : st) : res st :=
  let* l := copy_bl g 0 (bl s) in
  Ok (ST l (cs s) (length l) g (held l) [] []).

(** Move constructor, soa/main_def.inl:518-527: the new container and what stays behind.  The
    block store is moved out (std::vector leaves an empty vector); m_cur_size is an
    integer and keeps its value. *)
Definition move_of (s : st) : st * st :=
  (s, ST [] (cs s) 0 (tag s) [] [] []).

(** swap(other), soa/main_def.inl:5429-5437. *)
Definition swap_all (a b : st) : st * st := (b, a).

(** Copy assignment, soa/main_def.inl:5540-5547: the second component is the temporary that is
    destroyed. *)
Definition assign (g : nat) (s other : st) : res (st * st) :=
  let* t := copy_of g other in Ok (swap_all s t).

(** Move assignment, soa/main_def.inl:5550-5558: new value of the target, value of the source,
    temporary that is destroyed. *)
Definition move_assign (s other : st) : st * st * st :=
  let (t, o) := move_of other in
  let (s', t') := swap_all s t in (s', o, t').

(** equal_block, block_funcs 191-202, and std::vector operator==.
    std::equal / operator== of the stores, types.hpp:609-612 *)
Fixpoint list_eqb (l1 l2 : list V) : bool :=
  match l1, l2 with
  | [], [] => true
  | x :: t1, y :: t2 => veq x y && list_eqb t1 t2
  | _, _ => false
  end.

(** equal_blocks_pred, soa/main_def.inl:92-113. *)
Definition data_eqb (d1 d2 : option eblk) : bool :=
  match d1, d2 with
  | None, None => true
  | Some e1, Some e2 => (ecat e1 =? ecat e2) && list_eqb (ev e1) (ev e2)
  | _, _ => false
  end.

(** std::vector operator== of the position and size arrays.
    comparison of positions and sizes, soa/main_def.inl:269-283 *)
Fixpoint nats_eqb (l1 l2 : list nat) : bool :=
  match l1, l2 with
  | [], [] => true
  | x :: t1, y :: t2 => (x =? y) && nats_eqb t1 t2
  | _, _ => false
  end.

(** std::equal over the element blocks, soa/main_def.inl:116-134. *)
Fixpoint datas_eqb (l1 l2 : list (option eblk)) : bool :=
  match l1, l2 with
  | [], [] => true
  | x :: t1, y :: t2 => data_eqb x y && datas_eqb t1 t2
  | _, _ => false
  end.

(** operator==, soa/main_def.inl:5524-5537 with blocks_type::equals, soa/main_def.inl:269-282; operator!=
    is its negation. *)
Definition eq_mtv (a b : st) : bool :=
  (cs a =? cs b) &&
  (nats_eqb (map bp (bl a)) (map bp (bl b)) &&
   (nats_eqb (map bs (bl a)) (map bs (bl b)) &&
    (length (bl a) =? length (bl b)) && datas_eqb (map bd (bl a)) (map bd (bl b)))).

(** ** Position objects: block index and offset. *)

(** next_position, soa/main_def.inl:303-318, 328-344. *)
Definition next_position (p : nat * nat) (s : st) : res (nat * nat) :=
  let (i, k) := p in
  let* z := size_at i s in
  if k + 1 <? z then Ok (i, S k) else Ok (S i, 0).

(** The forward loop of advance_position, util.hpp:193-210 ([steps] is an int, assumed
    to be in range); every round but the last consumes at least one step, so
    [steps] rounds of fuel are enough. *)
Fixpoint advance_fwd (fuel : nat) (i k steps : nat) (s : st) : res (nat * nat) :=
  match steps with
  | O => Ok (i, k)
  | S _ =>
      match fuel with
      | O => Undef
      | S fuel =>
          let* z := size_at i s in
          if k + steps <? z then Ok (i, k + steps)
          else if z <? k then Undef
          else advance_fwd fuel (S i) 0 (steps - (z - k)) s
      end
  end.

(** The backward loop of advance_position, util.hpp:211-227. *)
Fixpoint advance_bwd (fuel : nat) (i k steps : nat) (s : st) : res (nat * nat) :=
  match steps with
  | O => Ok (i, k)
  | S _ =>
      match fuel with
      | O => Undef
      | S fuel =>
          if steps <=? k then Ok (i, k - steps)
          else
            match i with
            | O => Undef
            | S j =>
                let* z := size_at j s in
                match z with
                | O => Undef
                | S z' => advance_bwd fuel j z' (steps - (k + 1)) s
                end
            end
      end
  end.

(** advance_position, util.hpp:188-230. *)
Definition advance_position (p : nat * nat) (steps : Z) (s : st) : res (nat * nat) :=
  let (i, k) := p in
  let n := Z.abs_nat steps in
  if (0 <? steps)%Z then advance_fwd (S n) i k n s else advance_bwd (S n) i k n s.

(** logical_position, soa/main_def.inl:354-358. *)
Definition logical_position (p : nat * nat) (s : st) : res nat :=
  let* q := pos_at (fst p) s in Ok (q + snd p).

(** get(position), soa/main_def.inl:362-365. *)
Definition get_at (p : nat * nat) (s : st) : res V :=
  let* e := edata (fst p) s in deref (nth_error (ev e) (snd p)).

End Mtv2.
