(** Model of mdds::mtv::collection and its side_iterator.

    Source: /repo/include/mdds/multi_type_vector/collection.hpp and
    /repo/include/mdds/multi_type_vector/collection_def.inl.

    Simplifications that hold for the whole file:
    - A pointer to a container is a number; [mem] gives the container it points to
      at the time of the call (the collection does not own its containers).
    - The containers are modelled by MtvModel.v.  An iterator over blocks is the
      index of its block.
    - size_type and uintptr_t are [N] with arithmetic modulo 2^64.
    - [assert] does nothing (release build). *)
From Coq Require Import List ZArith NArith Lia Bool.
From Verif Require Import Base MtvModel MtvModel2.
Import ListNotations.
Open Scope N_scope.

(** size_type and uintptr_t, collection.hpp:26, 129: 64 bits. *)
Definition W : N := 2 ^ 64.
(** Addition of size_type, e.g. collection_def.inl:19, 197. *)
Definition wadd (a b : N) : N := (a + b) mod W.
(** Subtraction of size_type, collection_def.inl:53, 64. *)
Definition wsub (a b : N) : N := (a + W - b mod W) mod W.

Section Coll.
Context {V : Type}.
Notation st := (@MtvModel.st V).
(** The containers of the program (no code of its own), collection.hpp:141. *)
Variable mem : N -> st.

(** struct mtv_item without block_end, which is never read, collection.hpp:31-40. *)
Record item := IT { ivec : N; iblk : nat }.

(** What a node tells about the element, collection.hpp:43-65: type, position,
    the container it was read from and elem_position (block index and offset). *)
Record cur := CU { ctype : option nat; cposition : N; cvec : N; celem : nat * nat }.

(** class side_iterator, collection.hpp:76-81.  [nindex] is m_cur_node.index; the
    other members of m_cur_node are [None] while they are not initialised. *)
Record iter := SI {
  items : list item; nindex : N; ncur : option cur;
  epos : N; eend : N; ioff : N; iident : N }.

(** class collection, collection.hpp:141-146. *)
Record coll := CL {
  vecs : list N; msize : N; ident : N;
  estart : N; esize : N; cstart : N; csize : N }.

(** *it of a block iterator, giving its type, collection_def.inl:31, 73 and
    soa/iterator.hpp; the end iterator is undefined. *)
Definition blk_type (s : st) (i : nat) : res (option nat) :=
  let* d := data_at i s in Ok (dcat d).

(** The update of one item and of the current node, collection_def.inl:27-32 and
    67-73: item [k] of [l] moves to element position [p]. *)
Definition load (l : list item) (k : nat) (p : N) : res (list item * cur) :=
  let* c := deref (nth_error l k) in
  let* ep := position (Some (Some (iblk c))) (N.to_nat p) (mem (ivec c)) in
  let* t := blk_type (mem (ivec c)) (fst ep) in
  Ok (set_nth k (IT (ivec c) (fst ep)) l, CU t p (ivec c) ep).

(** side_iterator(), collection_def.inl:12-13: m_cur_node.index is not initialised
    (collection.hpp:43-65 has no constructor); [x] stands for what is found there. *)
Definition iter0 (x : N) : iter := SI [] x None 0 0 0 0.

(** side_iterator(..., begin_state), collection_def.inl:16-33. *)
Definition iter_begin (l : list item) (p n off id : N) : res iter :=
  match l with
  | [] => Ok (SI [] off None p (wadd p n) off id)
  | _ =>
      let* (l, c) := load l 0 p in
      Ok (SI l off (Some c) p (wadd p n) off id)
  end.

(** side_iterator(..., end_state), collection_def.inl:36-47. *)
Definition iter_end (l : list item) (p n off id : N) : iter :=
  SI l off None (wadd p n) (wadd p n) off id.

(** side_iterator::operator++, collection_def.inl:50-76. *)
Definition next (i : iter) : res iter :=
  let idx := wadd (nindex i) 1 in
  let step idx p :=
    let* (l, c) := load (items i) (N.to_nat (wsub idx (ioff i))) p in
    Ok (SI l idx (Some c) p (eend i) (ioff i) (iident i)) in
  if N.of_nat (length (items i)) <=? wsub idx (ioff i) then
    let p := wadd (epos i) 1 in
    if eend i <=? p
    then Ok (SI (items i) (ioff i) (ncur i) p (eend i) (ioff i) (iident i))
    else step (ioff i) p
  else step idx (epos i).

(** side_iterator::operator++(int), collection_def.inl:79-84: old value and new
    state. *)
Definition next_post (i : iter) : res (iter * iter) :=
  let* j := next i in Ok (i, j).

(** side_iterator::operator==, collection_def.inl:87-99. *)
Definition iter_eq (a b : iter) : bool :=
  if negb (iident a =? iident b) then false
  else if negb (eend a =? eend b) then false
  else if negb (epos a =? epos b) || negb (eend a =? eend b) then false
  else nindex a =? nindex b.

(** node::get for the block type of the element, collection.hpp:56-60; the element
    is empty when the node's type is element_type_empty.  Reading a node that was
    never set is undefined. *)
Definition node_val (i : iter) : res (option V) :=
  let* c := deref (ncur i) in
  match ctype c with
  | None => Ok None
  | Some _ => let* v := get_at (celem c) (mem (cvec c)) in Ok (Some v)
  end.

(** What a program reads from *it: index, position and value,
    collection.hpp:99-107. *)
Definition node_read (i : iter) : res (N * N * option V) :=
  let* c := deref (ncur i) in
  let* v := node_val i in
  Ok (nindex i, cposition c, v).

(** collection(), collection_def.inl:104-105. *)
Definition coll0 : coll := CL [] 0 0 0 0 0 0.

(** check_vector_size, collection_def.inl:265-274: the new m_mtv_size. *)
Definition check_vector_size (m : N) (s : st) : res N :=
  if (size s =? 0)%nat then Throw E_invalid_arg
  else if m =? 0 then Ok (N.of_nat (size s))
  else if m =? N.of_nat (size s) then Ok m
  else Throw E_invalid_arg.

(** The loop over init_insert_vector, collection_def.inl:114-115, 234-262: the
    vectors stored and m_mtv_size. *)
Fixpoint init_vectors (ps : list N) (m : N) : res N :=
  match ps with
  | [] => Ok m
  | p :: ps => let* m := check_vector_size m (mem p) in init_vectors ps m
  end.

(** The loop that builds the identity, collection_def.inl:121-125. *)
Definition fold_ident (ps : list N) (id : N) : N :=
  fold_left (fun id p => N.lxor (N.shiftl id 1 mod W) p) ps id.

(** collection(begin, end), collection_def.inl:109-134.  With an empty range line
    119 dereferences the end of an empty vector. *)
Definition make (ps : list N) : res coll :=
  let* m := init_vectors ps 0 in
  match ps with
  | [] => Undef
  | p :: t => Ok (CL ps m (fold_ident t p) 0 m 0 (N.of_nat (length ps)))
  end.

(** build_iterator_state, collection_def.inl:219-232.  reserve with more than
    max_size throws std::length_error ([E_general] here); iterators advanced past
    the end are undefined. *)
Definition build_state (c : coll) : res (list item) :=
  if 2 ^ 60 <=? csize c then Throw E_general
  else if N.of_nat (length (vecs c)) <? cstart c + csize c then Undef
  else Ok (map (fun p => IT p 0)
             (firstn (N.to_nat (csize c)) (skipn (N.to_nat (cstart c)) (vecs c)))).

(** begin, collection_def.inl:137-142. *)
Definition begin_ (c : coll) : res iter :=
  let* l := build_state c in
  iter_begin l (estart c) (esize c) (cstart c) (ident c).

(** end, collection_def.inl:145-150. *)
Definition end_ (c : coll) : res iter :=
  let* l := build_state c in
  Ok (iter_end l (estart c) (esize c) (cstart c) (ident c)).

(** size, collection_def.inl:153-156. *)
Definition csize_of (c : coll) : N := msize c.

(** swap, collection_def.inl:159-166. *)
Definition swap (a b : coll) : coll * coll :=
  (CL (vecs b) (msize b) (ident b) (estart b) (esize b) (cstart b) (csize b),
   CL (vecs a) (msize a) (ident a) (estart a) (esize a) (cstart a) (csize a)).

(** check_collection_range and check_element_range, collection_def.inl:185-216:
    [n] is m_vectors.size() or m_mtv_size. *)
Definition check_range (n start size : N) : res unit :=
  if n <=? start then Throw E_invalid_arg
  else if size =? 0 then Throw E_invalid_arg
  else if n <? wadd start size then Throw E_invalid_arg
  else Ok tt.

(** set_collection_range, collection_def.inl:169-174. *)
Definition set_collection_range (start size : N) (c : coll) : res coll :=
  let* _ := check_range (N.of_nat (length (vecs c))) start size in
  Ok (CL (vecs c) (msize c) (ident c) (estart c) (esize c) start size).

(** set_element_range, collection_def.inl:177-182. *)
Definition set_element_range (start size : N) (c : coll) : res coll :=
  let* _ := check_range (msize c) start size in
  Ok (CL (vecs c) (msize c) (ident c) start size (cstart c) (csize c)).

(** The loop [for (auto it = c.begin(); it != c.end(); ++it) read(it)] of a
    program, collection_def.inl:50-99, 137-150; [fuel] bounds the rounds, running
    out is [Ok None]. *)
Fixpoint walk (fuel : nat) (i e : iter) : res (option (list (N * N * option V))) :=
  match fuel with
  | O => Ok None
  | S f =>
      if iter_eq i e then Ok (Some [])
      else
        let* x := node_read i in
        let* j := next i in
        let* r := walk f j e in
        Ok (match r with Some t => Some (x :: t) | None => None end)
  end.

(** The whole loop over a collection, collection_def.inl:137-150. *)
Definition traverse (fuel : nat) (c : coll) : res (option (list (N * N * option V))) :=
  let* i := begin_ c in
  let* e := end_ c in
  walk fuel i e.

End Coll.
