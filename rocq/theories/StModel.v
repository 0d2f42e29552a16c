(** Executable model of mdds::segment_tree.

    A segment is (start, end, value).  A deleted entry of the segment store is the
    default constructed segment (0, 0, vdef).  The balanced tree is an inductive
    tree whose nodes carry the chain of segment positions; a node pointer is the
    path from the root (false = left, true = right).  Simplifications: parent and
    sibling pointers are implicit, keys are unbounded integers, a null data chain
    and an empty one are both the empty list (push_back_chain ignores both). *)
From Coq Require Import List ZArith Lia Bool.
From Verif Require Import Base FstModel.
Import ListNotations.
Open Scope Z_scope.

Section ST.
Context {V : Type}.
(** operator== of the value type; /repo/include/mdds/segment_tree.hpp:38-41 *)
Variable veqb : V -> V -> bool.
(** value_type{}; segment_tree.hpp:53-69 *)
Variable vdef : V.

(** segment_type; segment_tree.hpp:53-69 *)
Local Notation seg := (Z * Z * V)%type.
(** segment_type{}; segment_tree.hpp:59 *)
Definition seg_default : seg := (0, 0, vdef).
(** segment_type::operator==; segment_tree.hpp:68 *)
Definition seg_eqb (a b : seg) : bool :=
  let '(s1, e1, v1) := a in let '(s2, e2, v2) := b in
  (s1 =? s2) && (e1 =? e2) && veqb v1 v2.
(** The test for a deleted entry; segment_tree_def.inl:90, 291, 301, 505, 544 *)
Definition is_deleted (a : seg) : bool := seg_eqb a seg_default.

(** Leaf and non-leaf nodes with their data chains; node.hpp:38-122,
    segment_tree.hpp:78-117 *)
Inductive tnode : Type :=
| TLeaf (key : Z) (chain : list nat)
| TNode (low high : Z) (chain : list nat) (left : tnode) (right : option tnode).
(** A pointer to a node. *)
Notation path := (list bool).

(** Members; segment_tree.hpp:534-553.  [leaf_keys] are the keys from m_left_leaf to
    m_right_leaf; [tagged] is m_tagged_nodes_map. *)
Record st_t : Type := mkSt {
  store : list seg;
  tagged : list (nat * list path);
  root : option tnode;
  leaf_keys : list Z;
  valid : bool
}.

(** Default constructor; segment_tree_def.inl:245-248 *)
Definition st_new : st_t := mkSt [] [] None [] false.

(** erase_deleted_segments; segment_tree_def.inl:82-97 *)
Definition erase_deleted (l : list seg) : list seg := filter (fun s => negb (is_deleted s)) l.

(** std::sort on the keys; segment_tree_def.inl:437, 707 *)
Fixpoint ins_key (k : Z) (l : list Z) : list Z :=
  match l with
  | [] => [k]
  | h :: t => if k <=? h then k :: l else h :: ins_key k t
  end.
(** std::sort on the keys; segment_tree_def.inl:437, 707 *)
Definition sort_keys (l : list Z) : list Z := fold_right ins_key [] l.
(** std::unique and erase; segment_tree_def.inl:438, 708-709 *)
Fixpoint uniq (l : list Z) : list Z :=
  match l with
  | a :: ((b :: _) as t) => if a =? b then uniq t else a :: uniq t
  | _ => l
  end.
(** Both ends of every segment; segment_tree_def.inl:416-420, 697-704 *)
Fixpoint seg_keys (l : list seg) : list Z :=
  match l with
  | [] => []
  | (s, e, _) :: t => s :: e :: seg_keys t
  end.

(** create_leaf_node_instances; segment_tree_def.inl:426-466.  Nothing is created for
    fewer than two keys. *)
Definition create_leaf_keys (keys : list Z) : list Z :=
  match keys with
  | [] | [_] => []
  | _ => uniq (sort_keys keys)
  end.

(** Lower bound of a child; node.hpp:267-268 *)
Definition t_low (n : tnode) : Z := match n with TLeaf k _ => k | TNode l _ _ _ _ => l end.
(** Upper bound of a child taken over by its parent; node.hpp:280-298.  For a leaf it is
    the leaf's own key (only used when there is no next leaf). *)
Definition t_high (n : tnode) : Z := match n with TLeaf k _ => k | TNode _ h _ _ _ => h end.

(** First level of tree_builder::build; node.hpp:218-238, 262-300 *)
Fixpoint st_level0 (l : list Z) : list tnode :=
  match l with
  | [] => []
  | [k1] => [TNode k1 k1 [] (TLeaf k1 []) None]
  | k1 :: k2 :: rest =>
      TNode k1 (match rest with [] => k2 | k3 :: _ => k3 end) [] (TLeaf k1 []) (Some (TLeaf k2 []))
        :: st_level0 rest
  end.
(** One pass of build_tree_non_leaf; node.hpp:312-335 *)
Fixpoint st_level (l : list tnode) : list tnode :=
  match l with
  | [] => []
  | [n1] => [TNode (t_low n1) (t_high n1) [] n1 None]
  | n1 :: n2 :: rest => TNode (t_low n1) (t_high n2) [] n1 (Some n2) :: st_level rest
  end.
(** Nodes are taken from a pool of fixed size; node.hpp:244-260 *)
Definition st_take (pool : nat) (l : list tnode) : res nat :=
  if (length l <=? pool)%nat then Ok (pool - length l)%nat else Undef.
(** build_tree_non_leaf; node.hpp:302-339, recursion bounded by fuel *)
Fixpoint st_non_leaf (fuel pool : nat) (l : list tnode) : res (option tnode) :=
  match l with
  | [] => Ok None
  | [n] => Ok (Some n)
  | _ => match fuel with
         | O => Undef
         | S f =>
             let l' := st_level l in
             let* pool' := st_take pool l' in
             st_non_leaf f pool' l'
         end
  end.
(** tree_builder::build; node.hpp:218-241 *)
Definition st_builder (fuel pool : nat) (keys : list Z) : res (option tnode) :=
  let l0 := st_level0 keys in
  let* pool' := st_take pool l0 in
  st_non_leaf fuel pool' l0.

(** descend_tree_and_mark; segment_tree_def.inl:363-404.  Returns the tree with the mark
    added and the list of marked nodes in visiting order. *)
Fixpoint mark (i : nat) (s e : Z) (n : tnode) : tnode * list path :=
  match n with
  | TLeaf k ch => if (s <=? k) && (k <? e) then (TLeaf k (ch ++ [i]), [[]]) else (n, [])
  | TNode lo hi ch l r =>
      if (e <? lo) || (hi <=? s) then (n, [])
      else if (s <=? lo) && (hi <? e) then (TNode lo hi (ch ++ [i]) l r, [[]])
      else
        let '(l', pl) := mark i s e l in
        match r with
        | None => (TNode lo hi ch l' None, map (cons false) pl)
        | Some r =>
            let '(r', pr) := mark i s e r in
            (TNode lo hi ch l' (Some r'), map (cons false) pl ++ map (cons true) pr)
        end
  end.

(** The marking loop of build_tree; segment_tree_def.inl:347-357 *)
Fixpoint mark_all (i : nat) (l : list seg) (n : tnode) : tnode * list (nat * list path) :=
  match l with
  | [] => (n, [])
  | (s, e, _) :: t =>
      let '(n1, ps) := mark i s e n in
      let '(n2, m) := mark_all (S i) t n1 in
      (n2, (i, ps) :: m)
  end.

(** build_tree; segment_tree_def.inl:316-361 *)
Definition st_build (t : st_t) : res st_t :=
  let sg := erase_deleted (store t) in
  let keys := create_leaf_keys (seg_keys sg) in
  match keys with
  | [] => Ok (mkSt sg (tagged t) None [] false)
  | _ =>
      let n := length keys in
      let* pool := count_needed_nonleaf_nodes (S n) n 0 in
      let* r := st_builder n pool keys in
      match r with
      | None => Ok (mkSt sg (tagged t) None keys true)
      | Some r =>
          let '(r', m) := mark_all 0 sg r in
          Ok (mkSt sg m (Some r') keys true)
      end
  end.

(** Copy constructor; segment_tree_def.inl:250-256 *)
Definition st_copy (t : st_t) : res st_t :=
  let c := mkSt (store t) [] None [] (valid t) in
  if valid t then st_build c else Ok c.

(** insert; segment_tree_def.inl:468-476 *)
Definition st_insert (t : st_t) (s e : Z) (v : V) : res st_t :=
  if e <=? s then Throw E_invalid_arg
  else Ok (mkSt (store t ++ [(s, e, v)]) (tagged t) (root t) (leaf_keys t) false).

(** search_result_inserter and push_back_chain; segment_tree.hpp:232-247,
    segment_tree_def.inl:128-138 *)
Definition push_chain (ch : list nat) (acc : list (list nat)) : list (list nat) :=
  match ch with [] => acc | _ => ch :: acc end.

(** descend_tree_for_search; segment_tree_def.inl:14-80.  The list of non-empty chains
    in visiting order. *)
Fixpoint descend_search (x : Z) (n : tnode) : list (list nat) :=
  match n with
  | TLeaf _ ch => push_chain ch []
  | TNode lo hi ch l r =>
      if (x <? lo) || (hi <=? x) then []
      else
        push_chain ch
          (match l with
           | TLeaf kl _ =>
               if x <? kl then []
               else match r with
                    | Some (TLeaf kr cr) => if kr <=? x then push_chain cr [] else descend_search x l
                    | _ => descend_search x l
                    end
           | TNode ll lh _ _ _ =>
               if x <? ll then []
               else match r with
                    | Some r => if lh <=? x then descend_search x r else descend_search x l
                    | None => descend_search x l
                    end
           end)
  end.

(** search: the chains held by the results object; segment_tree_def.inl:478-490 *)
Definition search_chains (t : st_t) (x : Z) : list (list nat) :=
  if valid t then match root t with Some r => descend_search x r | None => [] end else [].

(** *it : the segment at the iterator's position; segment_tree.hpp:211-220 *)
Definition seg_at (t : st_t) (i : nat) : res seg := deref (nth_error (store t) i).

(** A const_iterator over search results: index of the chain, index in the chain and
    m_end_pos; segment_tree.hpp:165-230.  [None] iterates over the null chain list of an
    empty result. *)
Definition st_iter : Type := option (nat * nat * bool).
(** begin(); segment_tree.hpp:305-311, move_to_front segment_tree_def.inl:214-228 *)
Definition it_begin (cs : list (list nat)) : st_iter :=
  match cs with [] => None | _ => Some (0%nat, 0%nat, false) end.
(** end(); segment_tree.hpp:313-319, move_to_end segment_tree_def.inl:230-242 *)
Definition it_end (cs : list (list nat)) : res st_iter :=
  match cs with
  | [] => Ok None
  | _ =>
      let ci := (length cs - 1)%nat in
      let* ch := deref (nth_error cs ci) in
      match ch with
      | [] => Undef
      | _ => Ok (Some (ci, length ch - 1, true)%nat)
      end
  end.
(** operator==; segment_tree_def.inl:198-212 *)
Definition it_eqb (a b : st_iter) : bool :=
  match a, b with
  | None, None => true
  | Some (c1, p1, e1), Some (c2, p2, e2) => (c1 =? c2)%nat && (p1 =? p2)%nat && Bool.eqb e1 e2
  | _, _ => false
  end.
(** operator*; segment_tree.hpp:211-215 *)
Definition it_deref (cs : list (list nat)) (it : st_iter) : res nat :=
  match it with
  | None => Undef
  | Some (ci, pi, _) =>
      let* ch := deref (nth_error cs ci) in deref (nth_error ch pi)
  end.
(** operator++; segment_tree_def.inl:140-171 *)
Definition it_next (cs : list (list nat)) (it : st_iter) : res st_iter :=
  match it with
  | None => Undef
  | Some (ci, pi, e) =>
      let* ch := deref (nth_error cs ci) in
      if (S pi =? length ch)%nat then
        if (S ci =? length cs)%nat then Ok (Some (ci, pi, true))
        else Ok (Some (S ci, 0%nat, e))
      else Ok (Some (ci, S pi, e))
  end.
(** operator--; segment_tree_def.inl:173-196 *)
Definition it_prev (cs : list (list nat)) (it : st_iter) : res st_iter :=
  match it with
  | None => Ok None
  | Some (ci, pi, true) => Ok (Some (ci, pi, false))
  | Some (ci, pi, false) =>
      match pi with
      | O => match ci with
             | O => Ok (Some (ci, pi, false))
             | S c => let* ch := deref (nth_error cs c) in
                      match ch with [] => Undef | _ => Ok (Some (c, length ch - 1, false)%nat) end
             end
      | S p => Ok (Some (ci, p, false))
      end
  end.
(** The client's loop for (it = begin; it != end; ++it), bounded by fuel.
    over segment_tree.hpp:131-300 *)
Fixpoint it_collect (fuel : nat) (cs : list (list nat)) (en it : st_iter) : res (list nat) :=
  if it_eqb it en then Ok []
  else match fuel with
       | O => Undef
       | S f =>
           let* i := it_deref cs it in
           let* it' := it_next cs it in
           let* r := it_collect f cs en it' in
           Ok (i :: r)
       end.
(** The client's loop while (it != begin) [--it; visit *it], bounded by fuel.
    over segment_tree.hpp:131-300 *)
Fixpoint it_collect_back (fuel : nat) (cs : list (list nat)) (bg it : st_iter) : res (list nat) :=
  if it_eqb it bg then Ok []
  else match fuel with
       | O => Undef
       | S f =>
           let* it' := it_prev cs it in
           let* i := it_deref cs it' in
           let* r := it_collect_back f cs bg it' in
           Ok (i :: r)
       end.

(** search_results::size(); segment_tree_def.inl:115-126 *)
Definition res_size (cs : list (list nat)) : nat := list_sum (map (@length nat) cs).

(** remove_data_from_chain: the found entry is overwritten by the last one, which is
    popped; segment_tree_def.inl:577-585 *)
Fixpoint find_pos (v : nat) (l : list nat) : option nat :=
  match l with
  | [] => None
  | h :: t => if (h =? v)%nat then Some O else option_map S (find_pos v t)
  end.
(** remove_data_from_chain; segment_tree_def.inl:577-585 *)
Definition remove_from_chain (v : nat) (l : list nat) : list nat :=
  match find_pos v l with
  | None => l
  | Some p => removelast (set_nth p (last l O) l)
  end.

(** Access to the chain of the node at a path, used by remove_data_from_nodes;
    segment_tree_def.inl:558-575.  A dangling pointer is undefined. *)
Fixpoint upd_chain (f : list nat -> list nat) (p : path) (n : tnode) : res tnode :=
  match p, n with
  | [], TLeaf k ch => Ok (TLeaf k (f ch))
  | [], TNode lo hi ch l r => Ok (TNode lo hi (f ch) l r)
  | _ :: _, TLeaf _ _ => Undef
  | false :: p, TNode lo hi ch l r => let* l' := upd_chain f p l in Ok (TNode lo hi ch l' r)
  | true :: p, TNode lo hi ch l (Some r) => let* r' := upd_chain f p r in Ok (TNode lo hi ch l (Some r'))
  | true :: _, TNode _ _ _ _ None => Undef
  end.
(** remove_data_from_nodes; segment_tree_def.inl:558-575 *)
Fixpoint remove_from_nodes (v : nat) (ps : list path) (n : tnode) : res tnode :=
  match ps with
  | [] => Ok n
  | p :: rest => let* n' := upd_chain (remove_from_chain v) p n in remove_from_nodes v rest n'
  end.

(** m_tagged_nodes_map.find; segment_tree_def.inl:603 *)
Fixpoint tag_find (v : nat) (m : list (nat * list path)) : option (list path) :=
  match m with
  | [] => None
  | (k, ps) :: t => if (k =? v)%nat then Some ps else tag_find v t
  end.
(** m_tagged_nodes_map.erase; segment_tree_def.inl:609 *)
Definition tag_erase (v : nat) (m : list (nat * list path)) : list (nat * list path) :=
  filter (fun x => negb (fst x =? v)%nat) m.

(** remove_value_pos; segment_tree_def.inl:586-611 *)
Definition remove_value_pos (t : st_t) (pos : nat) : res st_t :=
  if (pos <? length (store t))%nat then
    let sg := set_nth pos seg_default (store t) in
    if negb (valid t) then Ok (mkSt sg (tagged t) (root t) (leaf_keys t) false)
    else
      match tag_find pos (tagged t) with
      | None => Ok (mkSt sg (tagged t) (root t) (leaf_keys t) true)
      | Some ps =>
          match root t with
          | None => Undef
          | Some r =>
              let* r' := remove_from_nodes pos ps r in
              Ok (mkSt sg (tag_erase pos (tagged t)) (Some r') (leaf_keys t) true)
          end
      end
  else Undef.

(** erase(it) for an iterator into the results of search(x); segment_tree_def.inl:492-496 *)
Definition st_erase (t : st_t) (it : st_iter) (x : Z) : res st_t :=
  let* pos := it_deref (search_chains t x) it in remove_value_pos t pos.

(** Loop of erase_if; segment_tree_def.inl:503-515.  [n] entries remain from [pos] on. *)
Fixpoint erase_if_loop (pred : Z -> Z -> V -> bool) (n pos : nat) (t : st_t) (cnt : nat) : res (st_t * nat) :=
  match n with
  | O => Ok (t, cnt)
  | S n' =>
      let* sg := seg_at t pos in
      let '(s, e, v) := sg in
      if is_deleted sg then erase_if_loop pred n' (S pos) t cnt
      else if pred s e v then
        let* t' := remove_value_pos t pos in erase_if_loop pred n' (S pos) t' (S cnt)
      else erase_if_loop pred n' (S pos) t cnt
  end.
(** erase_if; segment_tree_def.inl:498-518 *)
Definition st_erase_if (t : st_t) (pred : Z -> Z -> V -> bool) : res (st_t * nat) :=
  erase_if_loop pred (length (store t)) 0 t 0.

(** clear; segment_tree_def.inl:532-539 *)
Definition st_clear (t : st_t) : st_t := mkSt [] [] None [] false.
(** size; segment_tree_def.inl:541-546 *)
Definition st_size (t : st_t) : nat := length (filter (fun s => negb (is_deleted s)) (store t)).
(** empty; segment_tree_def.inl:548-556 *)
Definition st_empty (t : st_t) : bool :=
  match store t with [] => true | _ => (st_size t =? 0)%nat end.
(** leaf_size; segment_tree.hpp:455-463, node.hpp:375-386 (counts 1 for two null pointers) *)
Definition st_leaf_size (t : st_t) : nat := match leaf_keys t with [] => 1%nat | l => length l end.
(** boundary_keys; segment_tree_def.inl:692-711 *)
Definition boundary_keys (t : st_t) : list Z := uniq (sort_keys (seg_keys (erase_deleted (store t)))).

(** operator==; segment_tree_def.inl:281-314.  The right hand side is a set of pointers,
    i.e. its live entries in some order; std::find_if asks for any equal entry. *)
Definition st_eqb (a b : st_t) : bool :=
  if Bool.eqb (valid a) (valid b) then
    let rhs := erase_deleted (store b) in
    let lhs := erase_deleted (store a) in
    forallb (fun s => existsb (fun p => seg_eqb s p) rhs) lhs && (length lhs =? length rhs)%nat
  else false.

(** Defaulted move constructor; segment_tree.hpp:326.  Vectors, maps and leaf pointers are
    emptied in the source, m_root_node and m_valid_tree are plain members and stay:
    (moved-to, moved-from).  The moved-from root pointer still points into the pool now owned by the other
    tree. *)
Definition st_move (t : st_t) : st_t * st_t := (t, mkSt [] [] (root t) [] (valid t)).

(** Public mutating calls, for histories.  [SErase x k] erases through an iterator that
    was advanced [k] times from the beginning of the results of search(x).
    segment_tree.hpp:369-442 *)
Inductive st_op : Type :=
| SInsert (s e : Z) (v : V)
| SBuild
| SErase (x : Z) (k : nat)
| SEraseIf (pred : Z -> Z -> V -> bool)
| SClear.

(** An iterator advanced [k] times. segment_tree.hpp:150-262 *)
Fixpoint it_advance (cs : list (list nat)) (k : nat) (it : st_iter) : res st_iter :=
  match k with O => Ok it | S k' => let* it' := it_next cs it in it_advance cs k' it' end.

(** One call of a history; a rejected insert leaves the tree as it is.
    segment_tree.hpp:369-442 *)
Definition st_step (t : st_t) (o : st_op) : res st_t :=
  match o with
  | SInsert s e v => match st_insert t s e v with Throw _ => Ok t | r => r end
  | SBuild => st_build t
  | SErase x k =>
      let* it := it_advance (search_chains t x) k (it_begin (search_chains t x)) in st_erase t it x
  | SEraseIf p => let* (t', _) := st_erase_if t p in Ok t'
  | SClear => Ok (st_clear t)
  end.
(** A whole history. segment_tree.hpp:369-442 *)
Fixpoint st_run (t : st_t) (ops : list st_op) : res st_t :=
  match ops with [] => Ok t | o :: rest => let* t' := st_step t o in st_run t' rest end.

(** What a client collects from search(x): the segments behind the iterators of the result.
    segment_tree_def.inl:479-491 *)
Definition st_search (t : st_t) (x : Z) : res (list seg) :=
  let cs := search_chains t x in
  let* en := it_end cs in
  let* ps := it_collect (S (res_size cs)) cs en (it_begin cs) in
  fold_right (fun p acc => let* l := acc in let* s := seg_at t p in Ok (s :: l)) (Ok []) ps.
End ST.

Arguments mkSt {V}.
Arguments store {V}.
Arguments tagged {V}.
Arguments root {V}.
Arguments leaf_keys {V}.
Arguments valid {V}.
