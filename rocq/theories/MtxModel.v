(** Model of mdds::multi_type_matrix.

    Source: /repo/include/mdds/multi_type_matrix.hpp and
    /repo/include/mdds/multi_type_matrix_def.inl.

    Simplifications that hold for the whole file:
    - The store is the multi_type_vector of MtvModel.v (SoA).  The block types of a
      matrix (boolean, int8, double, string and integer blocks) own no heap objects.
    - size_type is [nat]: rows * columns does not wrap.
    - The overloads of set for double, bool, string and integer differ only in the
      type of the value; they are one definition.
    - A functor passed to walk is modelled by the list of nodes it is called with.
    - Iterators are block indexes, position objects block index and offset. *)
From Coq Require Import List ZArith Lia Bool.
From Verif Require Import Base MtvModel MtvModel2.
Import ListNotations.

(** mtm::element_t without element_empty, multi_type_matrix.hpp:22-29. *)
Inductive mty := KNum | KBool | KStr | KInt.

Section Mtx.
Context {V : Type}.
(** Block type of a value, as in MtvModel.v; multi_type_matrix.hpp:65-72. *)
Variable cat : V -> nat.
(** The block types that the matrix supports, multi_type_matrix.hpp:57-58, 80-81;
    [None] for any other (int8). *)
Variable kind : nat -> option mty.
(** No block type of the matrix is managed, multi_type_matrix.hpp:65-72. *)
Definition nm : nat -> bool := fun _ => false.

Notation st := (@MtvModel.st V).
Notation eblk := (@MtvModel.eblk V).

(** m_store and m_size, multi_type_matrix.hpp:821-822. *)
Record mtx := MX { store : st; rows : nat; cols : nat }.

(** element_block_node_type, multi_type_matrix.hpp:110-130; [None] as type is
    element_empty, [None] as data is nullptr. *)
Record node := ND { ntype : option mty; noff : nat; nsize : nat; ndata : option eblk }.

(** to_mtm_type, multi_type_matrix.hpp:132-148. *)
Definition to_mtm (c : option nat) : res (option mty) :=
  match c with
  | None => Ok None
  | Some c => match kind c with Some k => Ok (Some k) | None => Throw E_type end
  end.

(** get_pos(row, col), multi_type_matrix.hpp:810-813. *)
Definition get_pos (m : mtx) (i j : nat) : nat := rows m * j + i.

(** get_pos(position), multi_type_matrix.hpp:815-818. *)
Definition get_pos_at (p : nat * nat) (m : mtx) : res nat :=
  let* q := pos_at (fst p) (store m) in Ok (q + snd p).

(** A loop over a list of indexes, e.g. multi_type_matrix_def.inl:275, 385, 387
    (helper, no code of its own). *)
Fixpoint for_each {A B} (f : A -> B -> res B) (l : list A) (b : B) : res B :=
  match l with
  | [] => Ok b
  | a :: t => let* b := f a b in for_each f t b
  end.

(** multi_type_matrix(), multi_type_matrix_def.inl:61-62; [g] is the address tag of
    the store. *)
Definition mk0 (g : nat) : mtx := MX (mk_empty g) 0 0.

(** multi_type_matrix(rows, cols), multi_type_matrix_def.inl:65-66. *)
Definition mk (g r c : nat) : mtx := MX (mk_size g (r * c)) r c.

(** multi_type_matrix(rows, cols, value), multi_type_matrix_def.inl:70-72. *)
Definition mk_val (g r c : nat) (v : V) : mtx := MX (mk_fill cat g (r * c) v) r c.

(** multi_type_matrix(rows, cols, it_begin, it_end), multi_type_matrix_def.inl:76-85. *)
Definition mk_vals (g r c : nat) (vs : list V) : res mtx :=
  let* s := mk_range cat g (r * c) vs in
  if size s =? 0 then Ok (MX s r c)
  else
    let* d := data_at 0 s in
    let* _ := to_mtm (dcat d) in
    Ok (MX s r c).

(** multi_type_matrix(const multi_type_matrix&), multi_type_matrix_def.inl:88-90; the
    copy of a stored value is the value, every block type can be copied. *)
Definition mk_copy (g : nat) (m : mtx) : res mtx :=
  let* s := copy_of (fun v => v) (fun _ => true) g (store m) in Ok (MX s (rows m) (cols m)).

(** operator==, multi_type_matrix_def.inl:93-96. *)
Definition meq (veq : V -> V -> bool) (a b : mtx) : bool :=
  ((rows a =? rows b) && (cols a =? cols b)) && eq_mtv veq (store a) (store b).

(** operator=(const multi_type_matrix&), multi_type_matrix.hpp:254: member-wise. *)
Definition massign (g : nat) (m other : mtx) : res mtx :=
  let* s := assign (fun v => v) (fun _ => true) g (store m) (store other) in
  Ok (MX (fst s) (rows other) (cols other)).

(** size, multi_type_matrix_def.inl:376-379. *)
Definition msize (m : mtx) : nat * nat := (rows m, cols m).

(** empty, multi_type_matrix_def.inl:613-616. *)
Definition mempty (m : mtx) : bool := size (store m) =? 0.

(** position(row, col) and position(pos_hint, row, col),
    multi_type_matrix_def.inl:99-123; [h] is the block of the hint. *)
Definition mposition (h : option nat) (i j : nat) (m : mtx) : res (nat * nat) :=
  position (match h with Some b => Some (Some b) | None => None end) (get_pos m i j) (store m).

(** matrix_position, multi_type_matrix_def.inl:126-133; a division by zero is
    undefined. *)
Definition matrix_position (p : nat * nat) (m : mtx) : res (nat * nat) :=
  let* q := logical_position p (store m) in
  match rows m with
  | O => Undef
  | S _ => let c := q / rows m in Ok (q - rows m * c, c)
  end.

(** next_position, multi_type_matrix_def.inl:47-58. *)
Definition mnext_position (p : nat * nat) (m : mtx) : res (nat * nat) := next_position p (store m).

(** end_position, multi_type_matrix_def.inl:136-145. *)
Definition end_position (m : mtx) : nat * nat := (nblk (store m), 0).

(** get_type(row, col), multi_type_matrix_def.inl:154-157. *)
Definition mtype (i j : nat) (m : mtx) : res (option mty) :=
  let* c := get_type (get_pos m i j) (store m) in to_mtm c.

(** get_type(pos), multi_type_matrix_def.inl:148-151. *)
Definition mtype_at (p : nat * nat) (m : mtx) : res (option mty) :=
  let* d := data_at (fst p) (store m) in to_mtm (dcat d).

(** get<_T>(row, col) with the type of the element, multi_type_matrix_def.inl:235-240. *)
Definition mget (i j : nat) (m : mtx) : res (option V) := get (get_pos m i j) (store m).

(** get_string(row, col), get_string(pos), multi_type_matrix_def.inl:217-231. *)
Definition mget_string (i j : nat) (m : mtx) : res V :=
  let* p := position None (get_pos m i j) (store m) in
  let* d := data_at (fst p) (store m) in
  match dcat d with
  | Some c => match kind c with
              | Some KStr => get_at p (store m)
              | _ => Throw E_general
              end
  | None => Throw E_general
  end.

(** get_numeric(row, col), get_numeric(pos), multi_type_matrix_def.inl:160-188;
    [num] is the conversion of a double, integer or boolean to double, [zero] is 0.0. *)
Definition mget_numeric {D} (num : V -> D) (zero : D) (i j : nat) (m : mtx) : res D :=
  let* p := position None (get_pos m i j) (store m) in
  let* d := data_at (fst p) (store m) in
  match dcat d with
  | None => Ok zero
  | Some c => match kind c with
              | Some KNum | Some KInt | Some KBool => let* v := get_at p (store m) in Ok (num v)
              | Some KStr => Ok zero
              | None => Throw E_general
              end
  end.

(** Replace the store (helper), multi_type_matrix.hpp:821. *)
Definition with_store (m : mtx) (s : st) : mtx := MX s (rows m) (cols m).

(** A call on the store whose iterator is not used (helper), e.g.
    multi_type_matrix_def.inl:245, 285. *)
Definition on_store (m : mtx) (r : res (st * nat)) : res mtx :=
  let* (s, _) := r in Ok (with_store m s).

(** set(row, col, value), multi_type_matrix_def.inl:283-329. *)
Definition mset (i j : nat) (v : V) (m : mtx) : res mtx :=
  on_store m (set cat nm None (get_pos m i j) v (store m)).

(** set(pos, value), multi_type_matrix_def.inl:289-338: also the new position. *)
Definition mset_at (p : nat * nat) (v : V) (m : mtx) : res (mtx * (nat * nat)) :=
  let* q := get_pos_at p m in
  let* (s, b) := set cat nm (Some (Some (fst p))) q v (store m) in
  let* z := pos_at b s in
  if z <=? q then Ok (with_store m s, (b, q - z)) else Undef.

(** set_empty(row, col), multi_type_matrix_def.inl:243-246. *)
Definition mset_empty (i j : nat) (m : mtx) : res mtx :=
  on_store m (set_empty nm None (get_pos m i j) (get_pos m i j) (store m)).

(** set_empty(row, col, length), multi_type_matrix_def.inl:249-256. *)
Definition mset_empty_len (i j n : nat) (m : mtx) : res mtx :=
  if n =? 0 then Throw E_general
  else on_store m (set_empty nm None (get_pos m i j) (get_pos m i j + n - 1) (store m)).

(** set_empty(pos), multi_type_matrix_def.inl:259-264. *)
Definition mset_empty_at (p : nat * nat) (m : mtx) : res (mtx * (nat * nat)) :=
  let* q := get_pos_at p m in
  let* (s, b) := set_empty nm (Some (Some (fst p))) q q (store m) in
  let* z := pos_at b s in
  if z <=? q then Ok (with_store m s, (b, q - z)) else Undef.

(** set_column_empty, multi_type_matrix_def.inl:267-270; with no rows the row
    number wraps, which is left undefined here. *)
Definition mset_column_empty (j : nat) (m : mtx) : res mtx :=
  match rows m with
  | O => Undef
  | S r => on_store m (set_empty nm None (get_pos m 0 j) (get_pos m r j) (store m))
  end.

(** set_row_empty, multi_type_matrix_def.inl:273-280. *)
Definition mset_row_empty (i : nat) (m : mtx) : res mtx :=
  for_each (fun j m => mset_empty i j m) (seq 0 (cols m)) m.

(** set(row, col, it_begin, it_end), multi_type_matrix_def.inl:342-345. *)
Definition mset_range (i j : nat) (vs : list V) (m : mtx) : res mtx :=
  on_store m (set_range cat nm None (get_pos m i j) vs (store m)).

(** set(pos, it_begin, it_end), multi_type_matrix_def.inl:349-355. *)
Definition mset_range_at (p : nat * nat) (vs : list V) (m : mtx) : res (mtx * (nat * nat)) :=
  let* q := get_pos_at p m in
  let* (s, b) := set_range cat nm (Some (Some (fst p))) q vs (store m) in
  let* z := pos_at b s in
  if z <=? q then Ok (with_store m s, (b, q - z)) else Undef.

(** set_column, multi_type_matrix_def.inl:359-373. *)
Definition mset_column (j : nat) (vs : list V) (m : mtx) : res mtx :=
  if length vs <=? rows m then on_store m (set_range cat nm None (get_pos m 0 j) vs (store m))
  else on_store m (set_range cat nm None (get_pos m 0 j) (firstn (rows m) vs) (store m)).

(** clear, multi_type_matrix_def.inl:576-581. *)
Definition mclear (m : mtx) : res mtx :=
  let* s := clear nm (store m) in Ok (MX s 0 0).

(** swap, multi_type_matrix_def.inl:619-624. *)
Definition mswap (a b : mtx) : mtx * mtx :=
  let (sa, sb) := swap_all (store a) (store b) in
  (MX sa (rows b) (cols b), MX sb (rows a) (cols a)).

(** The body of the loops of transpose, multi_type_matrix_def.inl:389-416. *)
Definition transpose_cell (m : mtx) (i j : nat) (tmp : mtx) : res mtx :=
  let* k := mtype i j m in
  match k with
  | Some KNum | Some KBool | Some KStr =>
      let* x := get (get_pos m i j) (store m) in
      let* v := deref x in
      mset j i v tmp
  | None => Ok tmp
  | Some KInt => Throw E_general
  end.

(** transpose, multi_type_matrix_def.inl:382-422; [g] is the address tag of the new
    store. *)
Definition transpose (g : nat) (m : mtx) : res mtx :=
  let* tmp :=
    for_each (fun i tmp => for_each (fun j tmp => transpose_cell m i j tmp) (seq 0 (cols m)) tmp)
      (seq 0 (rows m)) (mk g (cols m) (rows m)) in
  Ok (snd (mswap tmp m)).

(** element_block_node_type::assign, multi_type_matrix_def.inl:19-27. *)
Definition node_of (p : nat * nat) (n : nat) (s : st) : res node :=
  let* d := data_at (fst p) s in
  let* k := to_mtm (dcat d) in
  Ok (ND k (snd p) n d).

(** begin and end of a node, multi_type_matrix_def.inl:29-45: the values between
    them; iterators past the end of the block are undefined. *)
Definition node_vals (n : node) : res (list V) :=
  let* e := deref (ndata n) in
  if noff n + nsize n <=? length (ev e) then Ok (firstn (nsize n) (skipn (noff n) (ev e))) else Undef.

(** sizes[i] - offset (checked), multi_type_matrix_def.inl:451, 663, 702, 749. *)
Definition left_in (p : nat * nat) (s : st) : res nat :=
  let* z := size_at (fst p) s in
  if snd p <=? z then Ok (z - snd p) else Undef.

(** The inner loop of copy(src), multi_type_matrix_def.inl:449-506: positions in
    source and destination, remaining rows, destination store.  The result tells the
    positions for the next column, or [None] after the return of line 500.  A round
    without progress (empty block) would loop forever; [fuel] makes it undefined. *)
Fixpoint copy_rows (fuel : nat) (src : st) (ps pd : nat * nat) (rem : nat) (dst : st)
  : res (st * option ((nat * nat) * (nat * nat))) :=
  match fuel with
  | O => Undef
  | S fuel =>
      let* lft := left_in ps src in
      let sec := Nat.min lft rem in
      let* nd := node_of ps sec src in
      let* lp := logical_position pd dst in
      let* (dst, blk) :=
        match ntype nd with
        | Some KNum | Some KBool | Some KStr =>
            let* vs := node_vals nd in
            set_range cat nm (Some (Some (fst pd))) lp vs dst
        | None => set_empty nm (Some (Some (fst pd))) lp (lp + sec - 1) dst
        | Some KInt => Throw E_general
        end in
      let rem := rem - sec in
      let nxt := lp + sec in
      if size dst <=? nxt then Ok (dst, None)
      else
        let* pd := position (Some (Some blk)) nxt dst in
        let ps := (S (fst ps), 0) in
        if rem =? 0 then Ok (dst, Some (ps, pd)) else copy_rows fuel src ps pd rem dst
  end.

(** The outer loop of copy(src), multi_type_matrix_def.inl:442-507. *)
Fixpoint copy_cols (js : list nat) (r : nat) (m src : mtx) (ps pd : nat * nat) : res mtx :=
  match js with
  | [] => Ok m
  | j :: js =>
      let* pd := mposition (Some (fst pd)) 0 j m in
      let* ps := mposition (Some (fst ps)) 0 j src in
      let* (s, o) := copy_rows (S r) (store src) ps pd r (store m) in
      match o with
      | None => Ok (with_store m s)
      | Some (ps, pd) => copy_cols js r (with_store m s) src ps pd
      end
  end.

(** copy(src) with src another matrix, multi_type_matrix_def.inl:425-508. *)
Definition mcopy (src m : mtx) : res mtx :=
  if mempty m || mempty src then Ok m
  else
    let r := Nat.min (rows m) (rows src) in
    let c := Nat.min (cols m) (cols src) in
    let* pd := mposition None 0 0 m in
    let* ps := mposition None 0 0 src in
    copy_cols (seq 0 c) r m src ps pd.

(** The loop of copy(rows, cols, it_begin, it_end), multi_type_matrix_def.inl:530-539. *)
Fixpoint copy_vals (js : list nat) (r : nat) (vs : list V) (p : nat * nat) (m : mtx) : res mtx :=
  match js with
  | [] => Ok m
  | j :: js =>
      let* p := mposition (Some (fst p)) 0 j m in
      let* (s, b) := set_range cat nm (Some (Some (fst p))) (get_pos m 0 j) (firstn r vs) (store m) in
      copy_vals js r (skipn r vs) (b, snd p) (with_store m s)
  end.

(** copy(rows, cols, it_begin, it_end), multi_type_matrix_def.inl:512-540. *)
Definition mcopy_vals (r c : nat) (vs : list V) (m : mtx) : res mtx :=
  if (length vs =? 0) || mempty m then Ok m
  else if negb (length vs =? r * c) then Throw E_size
  else if (rows m <? r) || (cols m <? c) then Throw E_size
  else
    let* v0 := deref (nth_error vs 0) in
    let* _ := to_mtm (Some (cat v0)) in
    let* p := mposition None 0 0 m in
    copy_vals (seq 0 c) r vs p m.

(** resize(rows, cols), multi_type_matrix_def.inl:543-556. *)
Definition mresize (g r c : nat) (m : mtx) : res mtx :=
  if (r =? 0) || (c =? 0) then mclear m
  else
    let* t := mcopy m (mk g r c) in
    Ok (snd (mswap t m)).

(** resize(rows, cols, value), multi_type_matrix_def.inl:560-573. *)
Definition mresize_val (g r c : nat) (v : V) (m : mtx) : res mtx :=
  if (r =? 0) || (c =? 0) then mclear m
  else
    let* t := mcopy m (mk_val g r c v) in
    Ok (snd (mswap t m)).

(** The loop of numeric, multi_type_matrix_def.inl:589-609. *)
Fixpoint numeric_blocks (l : list (@MtvModel.blk V)) : res bool :=
  match l with
  | [] => Ok true
  | b :: t =>
      match dcat (bd b) with
      | None => Ok false
      | Some c => match kind c with
                  | Some KNum | Some KBool | Some KInt => numeric_blocks t
                  | Some KStr => Ok false
                  | None => Throw E_general
                  end
      end
  end.

(** numeric, multi_type_matrix_def.inl:584-610. *)
Definition numeric (m : mtx) : res bool :=
  if mempty m then Ok false else numeric_blocks (bl (store m)).

(** walk(func), multi_type_matrix_def.inl:628-633, multi_type_matrix.hpp:158-165. *)
Fixpoint walk_blocks (l : list (@MtvModel.blk V)) : res (list node) :=
  match l with
  | [] => Ok []
  | b :: t =>
      let* k := to_mtm (dcat (bd b)) in
      let* r := walk_blocks t in
      Ok (ND k 0 (bs b) (bd b) :: r)
  end.
(** walk(func), the call of std::for_each, multi_type_matrix_def.inl:628-633. *)
Definition walk_all (m : mtx) : res (list node) := walk_blocks (bl (store m)).

(** The inner loop of walk(func, start, end), multi_type_matrix_def.inl:661-677; the
    nodes and the position for the next column. *)
Fixpoint walk_rows (fuel : nat) (p : nat * nat) (rem : nat) (s : st) : res (list node * (nat * nat)) :=
  match fuel with
  | O => Undef
  | S fuel =>
      let* lft := left_in p s in
      let sec := Nat.min lft rem in
      let* nd := node_of p sec s in
      let rem := rem - sec in
      let p := (S (fst p), 0) in
      if rem =? 0 then Ok ([nd], p)
      else
        let* (r, p) := walk_rows fuel p rem s in
        Ok (nd :: r, p)
  end.

(** The loop over columns of walk(func, start, end), multi_type_matrix_def.inl:656-678. *)
Fixpoint walk_cols (js : list nat) (i n : nat) (p : nat * nat) (m : mtx) : res (list node) :=
  match js with
  | [] => Ok []
  | j :: js =>
      let* p := mposition (Some (fst p)) i j m in
      let* (a, p) := walk_rows (S n) p n (store m) in
      let* b := walk_cols js i n p m in
      Ok (a ++ b)
  end.

(** walk(func, start, end), multi_type_matrix_def.inl:637-681: corners (i1, j1) and
    (i2, j2). *)
Definition walk_sub (i1 j1 i2 j2 : nat) (m : mtx) : res (list node) :=
  if (i2 <? i1) || (j2 <? j1) then Throw E_size
  else if (rows m <? i2) || (cols m <? j2) then Throw E_size
  else
    let* p := mposition None 0 0 m in
    walk_cols (seq j1 (j2 - j1 + 1)) i1 (i2 - i1 + 1) p m.

(** The loop of walk(func, right), multi_type_matrix_def.inl:700-713. *)
Fixpoint walk_two (fuel : nat) (p1 p2 : nat * nat) (rem : nat) (s1 s2 : st) : res (list (node * node)) :=
  match rem with
  | O => Ok []
  | S _ =>
      match fuel with
      | O => Undef
      | S fuel =>
          let* l1 := left_in p1 s1 in
          let* l2 := left_in p2 s2 in
          let sec := Nat.min l1 l2 in
          let* n1 := node_of p1 sec s1 in
          let* n2 := node_of p2 sec s2 in
          let* p1 := advance_position p1 (Z.of_nat sec) s1 in
          let* p2 := advance_position p2 (Z.of_nat sec) s2 in
          if sec <=? rem then
            let* r := walk_two fuel p1 p2 (rem - sec) s1 s2 in
            Ok ((n1, n2) :: r)
          else Undef
      end
  end.

(** walk(func, right), multi_type_matrix_def.inl:685-716. *)
Definition walk_pair (right m : mtx) : res (list (node * node)) :=
  if negb ((rows m =? rows right) && (cols m =? cols right)) then Throw E_size
  else if mempty m then Ok []
  else walk_two (size (store m)) (0, 0) (0, 0) (size (store m)) (store m) (store right).

(** The inner loop of walk(func, right, start, end), multi_type_matrix_def.inl:747-765. *)
Fixpoint walk_two_rows (fuel : nat) (p1 p2 : nat * nat) (rem : nat) (s1 s2 : st)
  : res (list (node * node) * ((nat * nat) * (nat * nat))) :=
  match fuel with
  | O => Undef
  | S fuel =>
      let* l1 := left_in p1 s1 in
      let* l2 := left_in p2 s2 in
      let sec := Nat.min (Nat.min l1 l2) rem in
      let* n1 := node_of p1 sec s1 in
      let* n2 := node_of p2 sec s2 in
      let* p1 := advance_position p1 (Z.of_nat sec) s1 in
      let* p2 := advance_position p2 (Z.of_nat sec) s2 in
      let rem := rem - sec in
      if rem =? 0 then Ok ([(n1, n2)], (p1, p2))
      else
        let* (r, pp) := walk_two_rows fuel p1 p2 rem s1 s2 in
        Ok ((n1, n2) :: r, pp)
  end.

(** The loop over columns of walk(func, right, start, end),
    multi_type_matrix_def.inl:740-766. *)
Fixpoint walk_two_cols (js : list nat) (i n : nat) (p1 p2 : nat * nat) (m right : mtx)
  : res (list (node * node)) :=
  match js with
  | [] => Ok []
  | j :: js =>
      let* p1 := mposition (Some (fst p1)) i j m in
      let* p2 := mposition (Some (fst p2)) i j right in
      let* (a, pp) := walk_two_rows (S n) p1 p2 n (store m) (store right) in
      let* b := walk_two_cols js i n (fst pp) (snd pp) m right in
      Ok (a ++ b)
  end.

(** walk(func, right, start, end), multi_type_matrix_def.inl:720-769. *)
Definition walk_pair_sub (right : mtx) (i1 j1 i2 j2 : nat) (m : mtx) : res (list (node * node)) :=
  if (i2 <? i1) || (j2 <? j1) then Throw E_size
  else if ((rows m <? i2) || (cols m <? j2)) || ((rows right <? i2) || (cols right <? j2)) then Throw E_size
  else
    let* p1 := mposition None 0 0 m in
    let* p2 := mposition None 0 0 right in
    walk_two_cols (seq j1 (j2 - j1 + 1)) i1 (i2 - i1 + 1) p1 p2 m right.

End Mtx.
