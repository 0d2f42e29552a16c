(** Executable model of mdds::trie_map,
    /repo/include/mdds/trie_map.hpp, trie_map_def.inl and trie_map_itr.hpp.

    A key is a sequence of units (integers; std::less<key_unit_type> is their
    order).  std::map<unit, node> is the list of its elements in key order, an
    iterator into it is an index, [length] being end().  A pointer to a node is
    modelled by the node it points to together with its path (the units from
    the root), which identifies it. *)
From Coq Require Import List ZArith Lia Bool Arith.
From Verif Require Import Base.
Import ListNotations.
Open Scope Z_scope.

Section TRIE.
Context {V : Type}.
(** operator== of the value type; trie_map_def.inl:910 *)
Variable veqb : V -> V -> bool.

(** trie_node; trie_map.hpp:195-208.  [value]/[has_value] is one option: the
    stale value of a node whose has_value is false is never read. *)
Inductive tnode : Type := TN (val : option V) (children : list (Z * tnode)).

(** field value/has_value; trie_map.hpp:200-201 *)
Definition nval (n : tnode) : option V := match n with TN v _ => v end.
(** field children; trie_map.hpp:199 *)
Definition nch (n : tnode) : list (Z * tnode) := match n with TN _ c => c end.
(** field has_value; trie_map.hpp:201 *)
Definition has_value (n : tnode) : bool := match nval n with Some _ => true | None => false end.
(** children.empty(), used throughout; trie_map.hpp:199 *)
Definition is_leaf (n : tnode) : bool := match nch n with [] => true | _ => false end.

(** trie_node(), and trie_map(); trie_map_def.inl:569-571, 654-656 *)
Definition tempty : tnode := TN None [].

(** std::map::lower_bound on the children; trie_map_def.inl:829 *)
Fixpoint lower_bound (c : Z) (l : list (Z * tnode)) : nat :=
  match l with
  | [] => O
  | (k, _) :: l' => if k <? c then S (lower_bound c l') else O
  end.

(** std::map::find on the children: index and node, none for end();
    trie_map_def.inl:647, 848, 868 *)
Fixpoint find_child (c : Z) (l : list (Z * tnode)) : option (nat * tnode) :=
  match l with
  | [] => None
  | (k, n) :: l' =>
      if k =? c then Some (O, n)
      else match find_child c l' with Some (i, m) => Some (S i, m) | None => None end
  end.

(** insert_into_tree; trie_map_def.inl:815-838 (the in-place update of the
    child is a rebuilt child list) *)
Fixpoint insert_into_tree (key : list Z) (v : V) (n : tnode) : tnode :=
  match key with
  | [] => TN (Some v) (nch n)
  | c :: key' =>
      let it := lower_bound c (nch n) in
      match nth_error (nch n) it with
      | Some (k, sub) =>
          if c <? k
          then TN (nval n) (insert_at it (c, insert_into_tree key' v tempty) (nch n))
          else TN (nval n) (set_nth it (k, insert_into_tree key' v sub) (nch n))
      | None => TN (nval n) (insert_at it (c, insert_into_tree key' v tempty) (nch n))
      end
  end.
(** insert; trie_map_def.inl:764-776 *)
Definition insert (key : list Z) (v : V) (t : tnode) : tnode := insert_into_tree key v t.

(** find_prefix_node, none for nullptr; trie_map_def.inl:840-854 *)
Fixpoint find_prefix_node (n : tnode) (prefix : list Z) : option tnode :=
  match prefix with
  | [] => Some n
  | c :: prefix' =>
      match find_child c (nch n) with
      | None => None
      | Some (_, sub) => find_prefix_node sub prefix'
      end
  end.

(** stack_item: node and child_pos; trie_map.hpp:210-230.  A node stack is a
    list whose head is back(). *)
Local Notation item := (tnode * nat)%type.
Local Notation stack := (list (tnode * nat)).

(** find_prefix_node_with_stack; trie_map_def.inl:856-877 *)
Fixpoint find_prefix_node_with_stack (st : stack) (n : tnode) (prefix : list Z) : stack :=
  match prefix with
  | [] => (n, O) :: st
  | c :: prefix' =>
      match find_child c (nch n) with
      | None => st
      | Some (i, sub) => find_prefix_node_with_stack ((n, i) :: st) sub prefix'
      end
  end.

(** si.child_pos->first for every stack item; trie_map_def.inl:886-887.
    Dereferencing end() is undefined. *)
Fixpoint path_units (st : stack) : res (list Z) :=
  match st with
  | [] => Ok []
  | (n, i) :: st' =>
      let* u := deref (nth_error (nch n) i) in
      let* k := path_units st' in
      Ok (k ++ [fst u])
  end.
(** build_key_buffer_from_node_stack; trie_map_def.inl:879-890 *)
Definition build_key_buffer (st : stack) : res (list Z) := path_units (tl st).

(** Writing a modified child back into its parents: in C++ the nodes are
    changed in place through the pointers of the stack; trie_map_def.inl:790-805 *)
Fixpoint rebuild (n : tnode) (st : stack) : tnode :=
  match st with
  | [] => n
  | (p, i) :: st' =>
      match nth_error (nch p) i with
      | Some (c, _) => rebuild (TN (nval p) (set_nth i (c, n) (nch p))) st'
      | None => rebuild p st'
      end
  end.

(** std::map::erase(iterator); trie_map_def.inl:803 *)
Definition remove_at {A} (i : nat) (l : list A) : list A := firstn i l ++ skipn (S i) l.

(** the loop removing childless nodes; trie_map_def.inl:797-805 *)
Fixpoint prune (n : tnode) (st : stack) : tnode :=
  if negb (has_value n) && is_leaf n then
    match st with
    | [] => n
    | (p, i) :: st' => prune (TN (nval p) (remove_at i (nch p))) st'
    end
  else rebuild n st.

(** erase; trie_map_def.inl:778-808 *)
Definition erase (key : list Z) (t : tnode) : tnode * bool :=
  match find_prefix_node_with_stack [] t key with
  | [] => (t, false)
  | (n, _) :: st =>
      if has_value n then (prune (TN None (nch n)) st, true) else (t, false)
  end.

(** count_values / size; trie_map_def.inl:892-902, 993-999 *)
Fixpoint count_values (n : tnode) : nat :=
  match n with
  | TN v cs =>
      ((if v then 1 else 0) +
       (fix go l := match l with [] => 0 | (_, c) :: l' => count_values c + go l' end) cs)%nat
  end.
(** empty; trie_map_def.inl:1001-1005 *)
Definition is_empty (t : tnode) : bool := is_leaf t && negb (has_value t).
(** clear; trie_map_def.inl:1007-1012 *)
Definition clear (t : tnode) : tnode := tempty.

(** operator== through descend_for_equality; trie_map_def.inl:745-750, 904-928 *)
Fixpoint equal_nodes (l r : tnode) : bool :=
  match l with
  | TN lv lc =>
      match lv, nval r with
      | None, None => true
      | Some a, Some b => veqb a b
      | _, _ => false
      end
      && Nat.eqb (length lc) (length (nch r))
      && (fix go ls rs :=
            match ls, rs with
            | (a, x) :: ls', (b, y) :: rs' => (a =? b) && equal_nodes x y && go ls' rs'
            | _, _ => true
            end) lc (nch r)
  end.

(** ** Iterators *)

(** iterator_type; trie_map_itr.hpp:19-26 *)
Inductive itype := T_normal | T_end | T_empty.

(** iterator_base; trie_map_itr.hpp:90-95.  [cval] is the value behind
    m_current_value_ptr. *)
Record iter := IT { stk : stack; buf : list Z; ckey : list Z; cval : option V; ity : itype }.

(** iterator_base(node_stack, buf, type): back() of the stack must exist;
    trie_map_itr.hpp:138-141 *)
Definition mk_iter (st : stack) (b : list Z) (ty : itype) : res iter :=
  match st with
  | [] => Undef
  | (n, _) :: _ => Ok (IT st b b (nval n) ty)
  end.
(** iterator_base(empty_iterator); trie_map_itr.hpp:131-132 *)
Definition empty_iter : iter := IT [] [] [] None T_empty.

(** end(); trie_map_def.inl:719-733 *)
Definition tend (t : tnode) : iter := IT [(t, length (nch t))] [] [] (nval t) T_end.

(** [while (!back().node->has_value) push_child_node_to_stack(begin)], the
    descent to the first node with a value, with push_child_node_to_stack
    inlined; trie_map_def.inl:682-687, trie_map_itr.hpp:97-105, 419-426.
    [n] is already on the stack; a leaf without value is undefined. *)
Fixpoint descend_first (n : tnode) (st : stack) (b : list Z) : res (stack * list Z) :=
  match n with
  | TN (Some _) _ => Ok (st, b)
  | TN None [] => Undef
  | TN None ((c, sub) :: _) => descend_first sub ((sub, O) :: st) (b ++ [c])
  end.

(** begin(); trie_map_def.inl:665-718 *)
Definition tbegin (t : tnode) : res iter :=
  match nch t with
  | [] => Ok (tend t)
  | (c, sub) :: _ =>
      let* (st, b) := descend_first sub [(sub, O); (t, O)] [c] in
      mk_iter st b T_normal
  end.

(** find (both overloads); trie_map_def.inl:937-974 *)
Definition find (t : tnode) (key : list Z) : res iter :=
  let st := find_prefix_node_with_stack [] t key in
  match st with
  | [] => Ok (tend t)
  | (n, _) :: _ =>
      if has_value n
      then let* b := build_key_buffer st in mk_iter st b T_normal
      else Ok (tend t)
  end.

(** search_results: m_node and m_buffer; trie_map_itr.hpp:388-404 *)
Definition results := (option tnode * list Z)%type.
(** prefix_search; trie_map_def.inl:983-991 *)
Definition prefix_search (t : tnode) (prefix : list Z) : results :=
  (find_prefix_node t prefix, prefix).
(** search_results::begin; trie_map_itr.hpp:408-429 *)
Definition rbegin (r : results) : res iter :=
  match fst r with
  | None => Ok empty_iter
  | Some n =>
      let* (st, b) := descend_first n [(n, O)] (snd r) in
      mk_iter st b T_normal
  end.
(** search_results::end; trie_map_itr.hpp:431-440 *)
Definition rend (r : results) : iter :=
  match fst r with
  | None => empty_iter
  | Some n => IT [(n, length (nch n))] (snd r) (snd r) (nval n) T_end
  end.

(** equality of two keys (key_type is a standard sequence);
    used by trie_map_def.inl:1417-1423 and by the specification *)
Fixpoint key_eqb (a b : list Z) : bool :=
  match a, b with
  | [], [] => true
  | x :: a', y :: b' => (x =? y) && key_eqb a' b'
  | _, _ => false
  end.

(** operator== of iterators over one trie; trie_map_itr.hpp:143-152 and
    trie_map.hpp:226-229.  The node pointers are compared through their paths
    (m_buffer); back() of an empty stack is undefined. *)
Definition iter_eqb (x y : iter) : res bool :=
  match ity x, ity y with
  | T_empty, T_empty => Ok true
  | T_normal, T_normal | T_end, T_end =>
      match stk x, stk y with
      | (_, i) :: _, (_, j) :: _ => Ok (key_eqb (buf x) (buf y) && Nat.eqb i j)
      | _, _ => Undef
      end
  | _, _ => Ok false
  end.

(** operator* and operator->; trie_map_itr.hpp:154-162.  Reading the value of
    a node that has none (an end iterator) is undefined here. *)
Definition iter_deref (x : iter) : res (list Z * V) :=
  let* v := deref (cval x) in Ok (ckey x, v).

(** the inner while(true) of operator++; trie_map_itr.hpp:175-204.  [top] is
    back() of the stack, [rest] what is below it.  [inl]: the end was reached;
    [inr]: moved down to an unvisited child. *)
Fixpoint go_up (top : item) (rest : stack) (b : list Z)
  : (stack * list Z) + (tnode * stack * list Z) :=
  match rest with
  | [] => inl ([top], b)
  | (p, i) :: rest' =>
      let b' := removelast b in
      match nth_error (nch p) (S i) with
      | Some (c, sub) => inr (sub, (sub, O) :: (p, S i) :: rest', b' ++ [c])
      | None => go_up (p, S i) rest' b'
      end
  end.

(** the do-while of operator++; trie_map_itr.hpp:168-212.  Fuel bounds the
    loop; running out is undefined. *)
Fixpoint inc_loop (fuel : nat) (cur : tnode) (st : stack) (b : list Z)
  : res ((stack * list Z) + (tnode * stack * list Z)) :=
  match fuel with
  | O => Undef
  | S f =>
      match nch cur with
      | [] =>
          match st with
          | [] => Undef
          | top :: rest =>
              match go_up top rest b with
              | inl e => Ok (inl e)
              | inr (cur', st', b') =>
                  if has_value cur' then Ok (inr (cur', st', b')) else inc_loop f cur' st' b'
              end
          end
      | (c, sub) :: _ =>
          let st' := (sub, O) :: st in
          let b' := b ++ [c] in
          if has_value sub then Ok (inr (sub, st', b')) else inc_loop f sub st' b'
      end
  end.

(** number of nodes, only used as fuel;
    bounds the loops of trie_map_itr.hpp:164-296 *)
Fixpoint node_count (n : tnode) : nat :=
  match n with
  | TN _ cs => S ((fix go l := match l with [] => O | (_, c) :: l' => (node_count c + go l')%nat end) cs)
  end.
(** fuel of the iterator loops: the nodes below the bottom of the stack;
    trie_map_itr.hpp:164-296 *)
Definition stack_fuel (st : stack) : nat :=
  match rev st with [] => O | (n, _) :: _ => S (node_count n) end.

(** operator++; trie_map_itr.hpp:164-217 *)
Definition iter_inc (x : iter) : res iter :=
  match stk x with
  | [] => Undef
  | (cur, _) :: _ =>
      let* r := inc_loop (stack_fuel (stk x)) cur (stk x) (buf x) in
      match r with
      | inl (st, b) => Ok (IT st b (ckey x) (cval x) T_end)
      | inr (n, st, b) => Ok (IT st b b (nval n) (ity x))
      end
  end.

(** the rest of descend_to_previus_leaf_node once a child [n] was entered:
    push it with child_pos = end(), and go on with its last child;
    trie_map_itr.hpp:115-126 *)
Fixpoint descend_last (n : tnode) (st : stack) (b : list Z) : tnode * stack * list Z :=
  match n with
  | TN _ cs =>
      (fix go (l : list (Z * tnode)) (k : nat) : tnode * stack * list Z :=
         match l with
         | [] => (n, (n, O) :: st, b)
         | [(c, sub)] => descend_last sub ((n, k) :: st) (b ++ [c])
         | _ :: l' => go l' (S k)
         end) cs O
  end.
(** descend_to_previus_leaf_node; trie_map_itr.hpp:111-129.  Decrementing
    begin() is undefined. *)
Definition descend_prev (top : item) (rest : stack) (b : list Z) : res (tnode * stack * list Z) :=
  let (p, i) := top in
  match i with
  | O => Undef
  | S j =>
      let* u := deref (nth_error (nch p) j) in
      Ok (descend_last (snd u) ((p, j) :: rest) (b ++ [fst u]))
  end.

(** the do-while of the leaf branch of operator--; trie_map_itr.hpp:250-265.
    After a descent to a leaf without value it goes on from there. *)
Fixpoint dec_leaf (fuel : nat) (st : stack) (b : list Z) : res (tnode * stack * list Z) :=
  match fuel with
  | O => Undef
  | S f =>
      match tl st with
      | [] => Undef
      | (p, i) :: rest =>
          let b' := removelast b in
          if Nat.eqb i 0 then
            if has_value p then Ok (p, (p, i) :: rest, b') else dec_leaf f ((p, i) :: rest) b'
          else
            let* (q, st', b'') := descend_prev (p, i) rest b' in
            if has_value q then Ok (q, st', b'') else dec_leaf f st' b''
      end
  end.

(** the do-while of the branch for a non-leaf node with value;
    trie_map_itr.hpp:274-290 *)
Fixpoint dec_inner (fuel : nat) (st : stack) (b : list Z) : res (tnode * stack * list Z) :=
  match fuel with
  | O => Undef
  | S f =>
      match tl st with
      | [] => Undef
      | (p, i) :: rest =>
          let b' := removelast b in
          match rest with
          | [] =>
              let* (q, st', b'') := descend_prev (p, i) rest b' in
              if has_value q then Ok (q, st', b'') else dec_inner f st' b''
          | _ =>
              if has_value p then Ok (p, (p, i) :: rest, b') else dec_inner f ((p, i) :: rest) b'
          end
      end
  end.

(** operator--; trie_map_itr.hpp:226-297 *)
Definition iter_dec (x : iter) : res iter :=
  match stk x with
  | [] => Undef
  | (cur, i) :: rest =>
      let fuel := stack_fuel (stk x) in
      let done ty r :=
        let '(n, st, b) := r in IT st b b (nval n) ty in
      match ity x, has_value cur, rest with
      | T_end, true, _ => Ok (done T_normal (cur, stk x, buf x))
      | _, _, [] =>
          let* r := descend_prev (cur, i) [] (buf x) in Ok (done T_normal r)
      | ty, _, _ =>
          if is_leaf cur
          then let* r := dec_leaf fuel (stk x) (buf x) in Ok (done ty r)
          else let* r := dec_inner fuel (stk x) (buf x) in Ok (done ty r)
      end
  end.

(** ** Walks: how a caller uses the iterators (not repo code) *)

(** [for (it = first; it != last; ++it) push_back( *it )];
    over trie_map_itr.hpp:143-217 *)
Fixpoint walk (fuel : nat) (it last : iter) : res (list (list Z * V)) :=
  match fuel with
  | O => Undef
  | S f =>
      let* e := iter_eqb it last in
      if e then Ok []
      else
        let* a := iter_deref it in
        let* it' := iter_inc it in
        let* l := walk f it' last in
        Ok (a :: l)
  end.
(** [while (it != first) { --it; push_back( *it ) }];
    over trie_map_itr.hpp:143-296 *)
Fixpoint walk_back (fuel : nat) (it first : iter) : res (list (list Z * V)) :=
  match fuel with
  | O => Undef
  | S f =>
      let* e := iter_eqb it first in
      if e then Ok []
      else
        let* it' := iter_dec it in
        let* a := iter_deref it' in
        let* l := walk_back f it' first in
        Ok (a :: l)
  end.

(** ** Node traversal *)

(** const_node_type::child on a possibly invalid node; trie_map_def.inl:641-652 *)
Definition node_child (n : option tnode) (c : Z) : option tnode :=
  match n with
  | None => None
  | Some m => match find_child c (nch m) with None => None | Some (_, s) => Some s end
  end.
(** const_node_type::valid; trie_map_def.inl:611-615 *)
Definition node_valid (n : option tnode) : bool := match n with Some _ => true | None => false end.
(** const_node_type::has_child; trie_map_def.inl:617-624 *)
Definition node_has_child (n : option tnode) : bool :=
  match n with Some m => negb (is_leaf m) | None => false end.
(** const_node_type::has_value; trie_map_def.inl:626-633 *)
Definition node_has_value (n : option tnode) : bool :=
  match n with Some m => has_value m | None => false end.
(** const_node_type::value; trie_map_def.inl:635-639 *)
Definition node_value (n : option tnode) : res V :=
  match n with Some m => deref (nval m) | None => Undef end.
(** root_node(); trie_map_def.inl:758-762 *)
Definition root_node (t : tnode) : option tnode := Some t.

(** trie_map(trie_map&&) through trie_node(trie_node&&); trie_map_def.inl:578-581,
    662-664: the new trie and what is left of the old one.  [junk] stands for a
    moved-from value object; std::move of the bool has_value copies it. *)
Definition move_trie (junk : V) (t : tnode) : tnode * tnode :=
  (t, TN (match nval t with Some _ => Some junk | None => None end) []).

(** ** Histories *)

(** calls that modify a trie; trie_map_def.inl:764-813, 1007-1012 *)
Inductive top := Insert (k : list Z) (v : V) | Erase (k : list Z) | Clear.
(** one modifying call; trie_map_def.inl:764-813, 1007-1012 *)
Definition tstep (t : tnode) (o : top) : tnode :=
  match o with
  | Insert k v => insert k v t
  | Erase k => fst (erase k t)
  | Clear => clear t
  end.
(** a sequence of calls on a new trie; trie_map_def.inl:764-813, 1007-1012 *)
Definition trun (os : list top) : tnode := fold_left tstep os tempty.
End TRIE.
Arguments tnode V : clear implicits.
Arguments iter V : clear implicits.
Arguments top V : clear implicits.
