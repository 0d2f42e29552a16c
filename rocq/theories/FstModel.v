(** Executable model of mdds::flat_segment_tree.

    The doubly linked list of leaf nodes is represented by the list of its
    nodes (key, value) from the leftmost to the rightmost leaf; a node pointer is
    an index into that list.  Simplification: intrusive reference counting and the
    [prev]/[next] pointers are implicit in the list order.  Keys are unbounded
    integers: wrap-around of narrow key types is not modelled. *)
From Coq Require Import List ZArith Lia Bool.
From Verif Require Import Base.
Import ListNotations.
Open Scope Z_scope.

Section FST.
Context {V : Type}.
(** operator== of the value type; /repo/include/mdds/flat_segment_tree.hpp:42-50 *)
Variable veqb : V -> V -> bool.
(** value_type{}; /repo/include/mdds/flat_segment_tree_def.inl:70-73 *)
Variable vnull : V.

(** One leaf node: key and value; /repo/include/mdds/node.hpp:99-122 *)
Local Notation leaf := (Z * V)%type.

(** Non-leaf nodes of the search tree; /repo/include/mdds/node.hpp:38-50.
    [NL] has leaf children (indices of leaves), [NN] has non-leaf children;
    the right child may be missing. *)
Inductive nl : Type :=
| NL (low high : Z) (left : nat) (right : option nat)
| NN (low high : Z) (left : nl) (right : option nl).

(** Members of the class; /repo/include/mdds/flat_segment_tree.hpp:790-798.
    [leaves] runs from m_left_leaf to m_right_leaf. *)
Record fst_t : Type := mkFst {
  leaves : list leaf;
  init_val : V;
  valid_tree : bool;
  root_node : option nl
}.

(** Constructor; /repo/include/mdds/flat_segment_tree_def.inl:57-74.  The code
    does not check [mn < mx]. *)
Definition fst_new (mn mx : Z) (d : V) : fst_t :=
  mkFst [(mn, d); (mx, vnull)] d false None.

(** Copy constructor: leaves only; flat_segment_tree_def.inl:76-104 *)
Definition fst_copy (t : fst_t) : fst_t :=
  mkFst (leaves t) (init_val t) false None.

(** m_left_leaf; flat_segment_tree.hpp:794 *)
Definition left_leaf (t : fst_t) : res leaf := deref (nth_error (leaves t) 0).
(** Index of m_right_leaf; flat_segment_tree.hpp:795 *)
Definition right_idx (t : fst_t) : nat := (length (leaves t) - 1)%nat.
(** m_right_leaf; flat_segment_tree.hpp:795 *)
Definition right_leaf (t : fst_t) : res leaf := deref (nth_error (leaves t) (right_idx t)).

(** clear(); flat_segment_tree_def.inl:150-164 *)
Definition fst_clear (t : fst_t) : res fst_t :=
  let* l := left_leaf t in
  let* r := right_leaf t in
  Ok (mkFst [(fst l, init_val t); r] (init_val t) false None).

(** Loop of get_insertion_pos_leaf; flat_segment_tree_def.inl:816-826 *)
Fixpoint gip (key : Z) (l : list leaf) (i : nat) : option nat :=
  match l with
  | [] => None
  | (k, _) :: t => if key <=? k then Some i else gip key t (S i)
  end.

(** get_insertion_pos_leaf; flat_segment_tree_def.inl:810-827.  [i] is start_pos. *)
Definition get_insertion_pos_leaf (key : Z) (L : list leaf) (i : nat) : option nat :=
  gip key (skipn i L) i.

(** get_insertion_pos_leaf_reverse; flat_segment_tree_def.inl:793-808 *)
Fixpoint get_insertion_pos_leaf_reverse (key : Z) (L : list leaf) (i : nat) : option nat :=
  match nth_error L i with
  | None => None
  | Some (k, _) =>
      if k <? key then Some i
      else match i with
           | O => None
           | S i' => get_insertion_pos_leaf_reverse key L i'
           end
  end.

(** adjust_segment_range; flat_segment_tree_def.inl:837-857.  [None] is the
    return value false; the comparison [end_key < min] is as in the source. *)
Definition adjust_segment_range (mn mx s e : Z) : option (Z * Z) :=
  if e <=? s then None
  else if (e <? mn) || (mx <=? s) then None
  else
    let s' := if s <? mn then mn else s in
    let e' := if mx <? e then mx else e in
    Some (s', e').

(** Start node part of insert_to_pos; flat_segment_tree_def.inl:214-264.  Result:
    new leaf list, index of new_start_node, old_value, changed, and by how many
    positions the nodes from start_pos on have moved. *)
Definition insert_start (L : list leaf) (i : nat) (s : Z) (v : V)
  : res (list leaf * nat * V * bool * nat) :=
  let* (ki, vi) := deref (nth_error L i) in
  let prev := match i with O => None | S i' => nth_error L i' end in
  if ki =? s then
    match prev with
    | Some (_, vp) =>
        if veqb vp v then Ok (L, pred i, vi, false, O)
        else Ok (set_nth i (ki, v) L, i, vi, negb (veqb vi v), O)
    | None => Ok (set_nth i (ki, v) L, i, vi, negb (veqb vi v), O)
    end
  else
    match prev with
    | None => Undef
    | Some (_, vp) =>
        if veqb vp v then Ok (L, pred i, vp, false, O)
        else Ok (insert_at i (s, v) L, i, vp, true, 1%nat)
    end.

(** Value of the last node of a list, or a default; used for [old_value] in the
    loop at flat_segment_tree_def.inl:266-276. *)
Definition last_value (l : list leaf) (d : V) : V := snd (last l (0, d)).

(** End node part of insert_to_pos; flat_segment_tree_def.inl:278-323.  [pre] is
    the list up to and including new_start_node, [post] the list from end_pos on,
    [removed] tells whether nodes in between were unlinked (then
    new_start_node->next is not end_pos). *)
Definition insert_end (pre post : list leaf) (e : Z) (v old : V) (removed changed : bool)
  : res (list leaf * bool) :=
  match post with
  | [] => Undef
  | (ke, ve) :: rest =>
      if ke =? e then
        match rest with
        | _ :: _ =>
            if veqb ve v then Ok (pre ++ rest, true)
            else Ok (pre ++ post, changed || removed)
        | [] => Ok (pre ++ post, changed || removed)
        end
      else if veqb old v then Ok (pre ++ post, changed || removed)
      else Ok (pre ++ (e, old) :: post, true)
  end.

(** insert_to_pos; flat_segment_tree_def.inl:202-329.  If end_pos does not come
    after new_start_node the unlinking loop runs off the list: undefined. *)
Definition insert_to_pos (t : fst_t) (i : nat) (s e : Z) (v : V)
  : res (fst_t * nat * bool) :=
  let L := leaves t in
  let j := match get_insertion_pos_leaf e L i with
           | Some j => j
           | None => right_idx t
           end in
  let* (L1, ns, old, chg, d) := insert_start L i s v in
  let j1 := (j + d)%nat in
  if (j1 <=? ns)%nat then Undef
  else
    let pre := firstn (S ns) L1 in
    let mid := firstn (j1 - S ns) (skipn (S ns) L1) in
    let post := skipn j1 L1 in
    let removed := match mid with [] => false | _ => true end in
    let* (L2, chg2) := insert_end pre post e v (last_value mid old) removed chg in
    Ok (mkFst L2 (init_val t) (if chg2 then false else valid_tree t) (root_node t), ns, chg2).

(** An iterator position returned to the caller: index of the leaf and the
    end flag; flat_segment_tree_itr.hpp:72-162. *)
Definition iter : Type := (nat * bool)%type.
(** end(); flat_segment_tree.hpp:159-162 *)
Definition end_iter (t : fst_t) : iter := (right_idx t, true).

(** insert_segment_impl; flat_segment_tree_def.inl:166-200 *)
Definition insert_segment_impl (t : fst_t) (s e : Z) (v : V) (forward : bool)
  : res (fst_t * iter * bool) :=
  let* (mn, _) := left_leaf t in
  let* (mx, _) := right_leaf t in
  match adjust_segment_range mn mx s e with
  | None => Ok (t, end_iter t, false)
  | Some (s', e') =>
      let start_pos :=
        if forward then get_insertion_pos_leaf s' (leaves t) 0
        else match get_insertion_pos_leaf_reverse s' (leaves t) (right_idx t) with
             | Some p => if (S p <? length (leaves t))%nat then Some (S p) else None
             | None => Some O
             end in
      match start_pos with
      | None => Ok (t, end_iter t, false)
      | Some i =>
          let* (t', ns, chg) := insert_to_pos t i s' e' v in
          Ok (t', (ns, false), chg)
      end
  end.

(** insert_front; flat_segment_tree.hpp:295-298 *)
Definition insert_front (t : fst_t) (s e : Z) (v : V) := insert_segment_impl t s e v true.
(** insert_back; flat_segment_tree.hpp:315-318 *)
Definition insert_back (t : fst_t) (s e : Z) (v : V) := insert_segment_impl t s e v false.

(** insert(pos, ...); flat_segment_tree_def.inl:331-359.  [None] is a default
    constructed iterator (or one of another tree); [Some p] points at leaf [p]. *)
Definition insert_hint (t : fst_t) (pos : option nat) (s e : Z) (v : V)
  : res (fst_t * iter * bool) :=
  match pos with
  | None => insert_front t s e v
  | Some p =>
      let* (kp, _) := deref (nth_error (leaves t) p) in
      if s <? kp then insert_front t s e v
      else
        let* (mn, _) := left_leaf t in
        let* (mx, _) := right_leaf t in
        match adjust_segment_range mn mx s e with
        | None => Ok (t, end_iter t, false)
        | Some (s', e') =>
            let* i := deref (get_insertion_pos_leaf s' (leaves t) p) in
            let* (t', ns, chg) := insert_to_pos t i s' e' v in
            Ok (t', (ns, false), chg)
        end
  end.

(** append_new_segment; flat_segment_tree.hpp:686-713 *)
Definition append_new_segment (t : fst_t) (k : Z) : res fst_t :=
  let L := leaves t in
  let r := right_idx t in
  match r with
  | O => Undef
  | S q =>
      let* (kq, vq) := deref (nth_error L q) in
      if kq =? k then
        Ok (mkFst (set_nth q (kq, init_val t) L) (init_val t) (valid_tree t) (root_node t))
      else if veqb vq (init_val t) then Ok t
      else Ok (mkFst (insert_at r (k, init_val t) L) (init_val t) false (root_node t))
  end.

(** shift_leaf_key_left on the nodes [i .. right); flat_segment_tree.hpp:738-747 *)
Definition shift_keys (d : Z) (l : list leaf) : list leaf :=
  map (fun n => (fst n + d, snd n)) l.
(** shift_leaf_key_left applied to a leaf list: nodes from index [i] up to but not
    including the rightmost leaf move left by [n]; flat_segment_tree.hpp:738-747 *)
Definition shift_leaf_key_left (L : list leaf) (i : nat) (n : Z) : list leaf :=
  firstn i L ++ shift_keys (- n) (firstn (length L - 1 - i) (skipn i L))
    ++ skipn (length L - 1) L.

(** Loop of shift_left that drops nodes up to end_key, keeping the value of the
    last one; flat_segment_tree_def.inl:428-435.  [l] excludes the rightmost leaf. *)
Fixpoint drop_upto (e : Z) (l : list leaf) (lastv : V) : list leaf * V :=
  match l with
  | [] => ([], lastv)
  | (k, v) :: t => if k <=? e then drop_upto e t v else (l, lastv)
  end.

(** shift_left; flat_segment_tree_def.inl:361-456 *)
Definition shift_left (t : fst_t) (s e : Z) : res fst_t :=
  if e <=? s then Ok t
  else
    let* (mn, _) := left_leaf t in
    let* (mx, vr) := right_leaf t in
    if (s <? mn) || (e <? mn) then Ok t
    else if (mx <? s) || (mx <? e) then Ok t
    else
      let L := leaves t in
      let node_pos := if mn =? s then Some O else get_insertion_pos_leaf s L 1 in
      match node_pos with
      | None => Ok t
      | Some p =>
          let n := e - s in
          if (p =? right_idx t)%nat then
            if mx <=? e then append_new_segment t s
            else append_new_segment t (mx - n)
          else
            let* (kp, vp) := deref (nth_error L p) in
            if e <? kp then
              let t1 := mkFst (shift_leaf_key_left L p n) (init_val t) false (root_node t) in
              append_new_segment t1 (mx - n)
            else
              let before := firstn p L in
              let inner := firstn (right_idx t - S p) (skipn (S p) L) in
              let '(rest, lastv) := drop_upto e inner vp in
              let start := match before with
                           | [] => [(s, lastv)]
                           | _ => if veqb (last_value before lastv) lastv then []
                                  else [(s, lastv)]
                           end in
              let L1 := before ++ start ++ shift_keys (- n) rest ++ [(mx, vr)] in
              append_new_segment (mkFst L1 (init_val t) false (root_node t)) (mx - n)
      end.

(** shift_leaf_key_right; flat_segment_tree.hpp:749-777.  [l] are the nodes from
    cur_node up to but excluding the rightmost leaf; nodes pushed to or past the
    bound [mx] are dropped together with all later ones. *)
Fixpoint shift_leaf_key_right (mx n : Z) (l : list leaf) : list leaf :=
  match l with
  | [] => []
  | (k, v) :: t => if k + n <? mx then (k + n, v) :: shift_leaf_key_right mx n t else []
  end.

(** shift_right; flat_segment_tree_def.inl:458-518 *)
Definition shift_right (t : fst_t) (pos n : Z) (skip : bool) : res fst_t :=
  if n <=? 0 then Ok t
  else
    let* (mn, vl) := left_leaf t in
    let* (mx, vr) := right_leaf t in
    if (pos <? mn) || (mx <=? pos) then Ok t
    else
      let L := leaves t in
      let inner i := firstn (right_idx t - i) (skipn i L) in
      if mn =? pos then
        let moved := shift_leaf_key_right mx n (inner 1%nat) in
        let d := init_val t in
        let L1 :=
          if negb (veqb vl d) && negb skip then
            if n <? mx - mn then (mn, d) :: (pos + n, vl) :: moved ++ [(mx, vr)]
            else (mn, d) :: moved ++ [(mx, vr)]
          else (mn, vl) :: moved ++ [(mx, vr)] in
        Ok (mkFst L1 d false (root_node t))
      else
        match get_insertion_pos_leaf pos L 1 with
        | None => Ok t
        | Some p =>
            let* (kp, _) := deref (nth_error L p) in
            let q := if skip && (kp =? pos) then S p else p in
            if (q <? length L)%nat then
              Ok (mkFst (firstn q L ++ shift_leaf_key_right mx n (inner q) ++ [(mx, vr)])
                        (init_val t) false (root_node t))
            else Ok t
        end.

(** Result of a successful search: leaf index, value, start and end key
    (all written through the out parameters). flat_segment_tree_def.inl:640-760 *)
Definition hit : Type := (nat * V * Z * Z)%type.

(** search_impl; flat_segment_tree_def.inl:520-546.  [None] is the failed search.
    When pos is the rightmost leaf [*end_key] is left untouched; that leaf is only
    passed by a hinted search, the model then reports the leaf's own key. *)
Definition search_impl (t : fst_t) (p : nat) (key : Z) : res (option hit) :=
  let L := leaves t in
  let* (kp, vp) := deref (nth_error L p) in
  if kp =? key then
    let ek := match nth_error L (S p) with Some (k, _) => k | None => kp end in
    Ok (Some (p, vp, kp, ek))
  else
    match p with
    | O => Ok None
    | S q =>
        let* (kq, vq) := deref (nth_error L q) in
        if kq <? key then Ok (Some (q, vq, kq, kp)) else Ok None
    end.

(** search(key, value, start_key, end_key); flat_segment_tree_def.inl:548-560 *)
Definition search (t : fst_t) (key : Z) : res (option hit) :=
  let* (mn, _) := left_leaf t in
  let* (mx, _) := right_leaf t in
  if (key <? mn) || (mx <=? key) then Ok None
  else
    let* p := deref (get_insertion_pos_leaf key (leaves t) 0) in
    search_impl t p key.

(** search(pos, key, value, ...); flat_segment_tree_def.inl:562-590 *)
Definition search_hint (t : fst_t) (pos : option nat) (key : Z) : res (option hit) :=
  let* (mn, _) := left_leaf t in
  let* (mx, _) := right_leaf t in
  if (key <? mn) || (mx <=? key) then Ok None
  else
    match pos with
    | None => search t key
    | Some p =>
        let* (kp, _) := deref (nth_error (leaves t) p) in
        if key <? kp then search t key
        else
          let* q := deref (get_insertion_pos_leaf key (leaves t) p) in
          search_impl t q key
    end.

(** search_by_key_impl; flat_segment_tree_def.inl:605-623.  [None] start_pos is a
    null pointer; the result is a leaf index or the end iterator [None]. *)
Definition search_by_key_impl (t : fst_t) (start : option nat) (key : Z) : res (option nat) :=
  let L := leaves t in
  let* (mn, _) := left_leaf t in
  let* (mx, _) := right_leaf t in
  if (key <? mn) || (mx <=? key) then Ok None
  else
    match match start with
          | None => None
          | Some p => get_insertion_pos_leaf key L p
          end with
    | None => Ok None
    | Some p =>
        let* (kp, _) := deref (nth_error L p) in
        if kp =? key then Ok (Some p)
        else match p with
             | O => Ok None
             | S q =>
                 let* (kq, _) := deref (nth_error L q) in
                 if kq <? key then Ok (Some q) else Ok None
             end
    end.

(** search(key); flat_segment_tree_def.inl:592-596 *)
Definition search_key (t : fst_t) (key : Z) := search_by_key_impl t (Some O) key.
(** search(pos, key); flat_segment_tree_def.inl:598-603 *)
Definition search_key_hint (t : fst_t) (pos : option nat) (key : Z) := search_by_key_impl t pos key.

(** low of a non-leaf child; node.hpp:267-268 *)
Definition nl_low (x : nl) : Z := match x with NL l _ _ _ | NN l _ _ _ => l end.
(** high of a non-leaf child; node.hpp:292, 297-298 *)
Definition nl_high (x : nl) : Z := match x with NL _ h _ _ | NN _ h _ _ => h end.

(** tree_builder::build, first level over leaf nodes; node.hpp:218-238 with
    make_parent_node and fill_nonleaf_parent_node (node.hpp:244-300).  [l] is the
    list from node1 on, [i] the index of node1. *)
Fixpoint build_level0 (l : list leaf) (i : nat) : list nl :=
  match l with
  | [] => []
  | [(k1, _)] => [NL k1 k1 i None]
  | (k1, _) :: (k2, _) :: rest =>
      let high := match rest with [] => k2 | (k3, _) :: _ => k3 end in
      NL k1 high i (Some (S i)) :: build_level0 rest (S (S i))
  end.

(** One pass of build_tree_non_leaf; node.hpp:312-335 *)
Fixpoint build_level (l : list nl) : list nl :=
  match l with
  | [] => []
  | [n1] => [NN (nl_low n1) (nl_high n1) n1 None]
  | n1 :: n2 :: rest => NN (nl_low n1) (nl_high n2) n1 (Some n2) :: build_level rest
  end.

(** Take the nodes of a freshly built level from the pool: make_parent_node advances
    m_pool_pos once per node (node.hpp:244-260), running past the pool is undefined. *)
Definition take_pool (pool : nat) (l : list nl) : res nat :=
  if (length l <=? pool)%nat then Ok (pool - length l)%nat else Undef.

(** build_tree_non_leaf; node.hpp:302-339, recursion bounded by fuel; [pool] is the
    number of unused nodes left in m_pool *)
Fixpoint build_tree_non_leaf (fuel pool : nat) (l : list nl) : res (option nl) :=
  match l with
  | [] => Ok None
  | [n] => Ok (Some n)
  | _ => match fuel with
         | O => Undef
         | S f =>
             let l' := build_level l in
             let* pool' := take_pool pool l' in
             build_tree_non_leaf f pool' l'
         end
  end.

(** tree_builder::build; node.hpp:218-241 *)
Definition builder_build (fuel pool : nat) (L : list leaf) : res (option nl) :=
  let l0 := build_level0 L 0 in
  let* pool' := take_pool pool l0 in
  build_tree_non_leaf fuel pool' l0.

(** count_needed_nonleaf_nodes; node.hpp:388-405, loop bounded by fuel.  The
    source loops forever for leaf_count = 0 (0 is even, 0/2 = 0). *)
Fixpoint count_needed_nonleaf_nodes (fuel : nat) (leaf_count nonleaf_count : nat) : res nat :=
  match fuel with
  | O => Undef
  | S f =>
      if (leaf_count =? 1)%nat then Ok nonleaf_count
      else
        let lc := if Nat.eqb (Nat.modulo leaf_count 2) 1 then S leaf_count else leaf_count in
        let lc2 := Nat.div lc 2 in
        count_needed_nonleaf_nodes f lc2 (nonleaf_count + lc2)%nat
  end.

(** leaf_size(); flat_segment_tree.hpp:518-522, node.hpp:375-386 *)
Definition leaf_size (t : fst_t) : nat := length (leaves t).

(** build_tree; flat_segment_tree_def.inl:740-758 *)
Definition build_tree (t : fst_t) : res fst_t :=
  let n := leaf_size t in
  let* pool := count_needed_nonleaf_nodes (S n) n 0 in
  let* r := builder_build n pool (leaves t) in
  Ok (mkFst (leaves t) (init_val t) true r).

(** Descent of search_tree_for_leaf_node; flat_segment_tree_def.inl:680-737.
    A missing right leaf would be dereferenced: undefined. *)
Fixpoint descend (L : list leaf) (key : Z) (n : nl) : res (option nat) :=
  match n with
  | NL _ high l r =>
      match r with
      | None => Undef
      | Some r =>
          let* (key1, _) := deref (nth_error L l) in
          let* (key2, _) := deref (nth_error L r) in
          if (key1 <=? key) && (key <? key2) then Ok (Some l)
          else if (key2 <=? key) && (key <? high) then Ok (Some r)
          else Ok None
      end
  | NN _ _ l r =>
      if (nl_low l <=? key) && (key <? nl_high l) then descend L key l
      else
        match r with
        | None => Ok None
        | Some r =>
            if (nl_low r <=? key) && (key <? nl_high r) then descend L key r
            else Ok None
        end
  end.

(** search_tree_for_leaf_node; flat_segment_tree_def.inl:662-738 *)
Definition search_tree_for_leaf_node (t : fst_t) (key : Z) : res (option nat) :=
  match root_node t with
  | None => Ok None
  | Some r =>
      if negb (valid_tree t) then Ok None
      else
        let* (mn, _) := left_leaf t in
        let* (mx, _) := right_leaf t in
        if (key <? mn) || (mx <=? key) then Ok None
        else descend (leaves t) key r
  end.

(** search_tree(key, value, start_key, end_key); flat_segment_tree_def.inl:625-650 *)
Definition search_tree (t : fst_t) (key : Z) : res (option hit) :=
  let* o := search_tree_for_leaf_node t key in
  match o with
  | None => Ok None
  | Some p =>
      let* (kp, vp) := deref (nth_error (leaves t) p) in
      let* (mx, _) := right_leaf t in
      let ek := match nth_error (leaves t) (S p) with Some (k, _) => k | None => mx end in
      Ok (Some (p, vp, kp, ek))
  end.

(** search_tree(key); flat_segment_tree_def.inl:652-660 *)
Definition search_tree_key (t : fst_t) (key : Z) : res (option nat) :=
  search_tree_for_leaf_node t key.

(** operator==; flat_segment_tree_def.inl:760-791 *)
Fixpoint leaves_eqb (l1 l2 : list leaf) : bool :=
  match l1, l2 with
  | [], [] => true
  | (k1, v1) :: t1, (k2, v2) :: t2 => (k1 =? k2) && veqb v1 v2 && leaves_eqb t1 t2
  | _, _ => false
  end.
(** operator==; flat_segment_tree_def.inl:760-791 *)
Definition fst_eqb (a b : fst_t) : bool := leaves_eqb (leaves a) (leaves b).

(** min_key, max_key, default_value; flat_segment_tree.hpp:498-511 *)
Definition min_key (t : fst_t) : res Z := let* (k, _) := left_leaf t in Ok k.
(** max_key; flat_segment_tree.hpp:503-506 *)
Definition max_key (t : fst_t) : res Z := let* (k, _) := right_leaf t in Ok k.

(** Segments presented by begin_segment()..end_segment(): consecutive leaves;
    flat_segment_tree_def.inl:39-49, flat_segment_tree_itr.hpp:247-295 *)
Fixpoint segments_of (l : list leaf) : list (Z * Z * V) :=
  match l with
  | (k1, v1) :: (((k2, _) :: _) as rest) => (k1, k2, v1) :: segments_of rest
  | _ => []
  end.
(** segment_range(); flat_segment_tree_def.inl:51-55 *)
Definition segments (t : fst_t) : list (Z * Z * V) := segments_of (leaves t).

(** Mutating public operations, for histories.  [OHint (Some p)] uses an iterator
    pointing at leaf [p]; [OCopy] goes on with a copy, or assigns the tree to itself
    (operator=, flat_segment_tree_def.inl:123-129). flat_segment_tree.hpp:200-460 *)
Inductive op : Type :=
| OFront (s e : Z) (v : V)
| OBack (s e : Z) (v : V)
| OHint (p : option nat) (s e : Z) (v : V)
| OShiftL (s e : Z)
| OShiftR (pos n : Z) (skip : bool)
| OBuild
| OClear
| OCopy.

(** One call of a history. flat_segment_tree.hpp:200-460 *)
Definition step (t : fst_t) (o : op) : res fst_t :=
  match o with
  | OFront s e v => let* (t', _, _) := insert_front t s e v in Ok t'
  | OBack s e v => let* (t', _, _) := insert_back t s e v in Ok t'
  | OHint p s e v => let* (t', _, _) := insert_hint t p s e v in Ok t'
  | OShiftL s e => shift_left t s e
  | OShiftR p n k => shift_right t p n k
  | OBuild => build_tree t
  | OClear => fst_clear t
  | OCopy => Ok (fst_copy t)
  end.

(** A whole history. calls of flat_segment_tree.hpp:200-460 *)
Fixpoint run (t : fst_t) (ops : list op) : res fst_t :=
  match ops with
  | [] => Ok t
  | o :: rest => let* t' := step t o in run t' rest
  end.

End FST.

Arguments mkFst {V}.
Arguments leaves {V}.
Arguments init_val {V}.
Arguments valid_tree {V}.
Arguments root_node {V}.
