(** Model of mdds::rtree (include/mdds/rtree.hpp, include/mdds/rtree_def.inl).

    Keys are mathematical integers (no overflow; the division by two in
    get_center_point truncates as for a signed integer key).  A box is the list
    of its (start, end) pairs, one per dimension.  The tree is a value of the
    inductive type [nd]; every node carries the address of the node_store object
    it lives in and the raw parent pointer stored in it, and the code that
    follows parent pointers looks the pointed-to object up in the tree.  A
    pointer to an object that is no longer there is an undefined dereference, as
    is an upward walk that does not end.  std::deque: push_back keeps the other
    elements in place, erase at one of the ends too, and erase in the middle
    invalidates the addresses of all elements, which therefore get new ones.
    std::sort leaves the objects in place and permutes their contents; which of
    the sorted orders it produces is a parameter ([srt]).  Assertions are off.
    Left out: export_tree and the other debug output, the value of valid_pointer
    in value nodes (only read by an assertion). *)

From Coq Require Import List ZArith Lia Bool.
From Verif Require Import Base.
Import ListNotations.
Open Scope Z_scope.

(** rtree.hpp:154-206 extent_type, as one (start, end) pair per dimension *)
Definition box := list (Z * Z).
(** rtree.hpp:142-152 point_type *)
Definition point := list Z.
(** address of a node_store object (rtree.hpp:228-292) *)
Notation addr := nat (only parsing).

(** The template argument Traits (rtree.hpp:20-58) and the order std::sort
    gives to elements that compare equal; [spl] is n_splits_per_dim as computed
    in floating point from the number of elements (1134-1135) *)
Record cfg := CFG {
  dims : nat;
  mn : nat;
  mx : nat;
  maxdepth : nat;
  forced : bool;
  reins : nat;
  srt : forall A : Type, (A -> A -> bool) -> list A -> list A;
  spl : nat -> nat }.

(** rtree.hpp:151, 166 and 416-430, 459-463 operator== on points and extents *)
Fixpoint box_eqb (a b : box) : bool :=
  match a, b with
  | [], [] => true
  | (s1, e1) :: r1, (s2, e2) :: r2 => (s1 =? s2) && (e1 =? e2) && box_eqb r1 r2
  | _, _ => false
  end.

(** rtree_def.inl:417-430 point_type::operator== applied to both corners (1445) *)
Fixpoint box_is_point (b : box) (p : point) : bool :=
  match b, p with
  | [], [] => true
  | (s, e) :: r, x :: q => (s =? x) && (e =? x) && box_is_point r q
  | _, _ => false
  end.

(** rtree_def.inl:466-475 contains(point) *)
Fixpoint contains_pt (b : box) (p : point) : bool :=
  match b, p with
  | (s, e) :: r, x :: q => if (x <? s) || (e <? x) then false else contains_pt r q
  | _, _ => true
  end.

(** rtree_def.inl:478-487 contains(extent) *)
Fixpoint contains (b c : box) : bool :=
  match b, c with
  | (s, e) :: r, (s', e') :: q =>
      if (s' <? s) || (e <? e') then false else contains r q
  | _, _ => true
  end.

(** rtree_def.inl:496-505 contains_at_boundary *)
Fixpoint at_boundary (b c : box) : bool :=
  match b, c with
  | (s, e) :: r, (s', e') :: q =>
      if (s =? s') || (e' =? e) then true else at_boundary r q
  | _, _ => false
  end.

(** rtree_def.inl:66-105 calc_linear_intersection *)
Definition lin (i j : Z * Z) : Z :=
  let '(s1, e1) := i in
  let '(s2, e2) := j in
  let '(s1, e1, s2, e2) := if s2 <? s1 then (s2, e2, s1, e1) else (s1, e1, s2, e2) in
  if e1 <? s2 then 0 else if e1 <? e2 then e1 - s2 else e2 - s2.

(** rtree_def.inl:108-139 intersects *)
Fixpoint intersects (b1 b2 : box) : bool :=
  match b1, b2 with
  | (s1, e1) :: r1, (s2, e2) :: r2 =>
      let '(s1, e1, s2, e2) := if s2 <? s1 then (s2, e2, s1, e1) else (s1, e1, s2, e2) in
      if e1 <? s2 then false else intersects r1 r2
  | _, _ => true
  end.

(** rtree_def.inl:142-162 calc_intersection *)
Fixpoint volume (b1 b2 : box) : Z :=
  match b1, b2 with
  | i :: r1, j :: r2 => let x := lin i j in if x =? 0 then 0 else x * volume r1 r2
  | _, _ => 1
  end.

(** rtree_def.inl:165-187 enlarge_extent_to_fit: the enlarged box *)
Fixpoint enl (p c : box) : box :=
  match p, c with
  | (s, e) :: r, (s', e') :: q =>
      (if s' <? s then s' else s, if e <? e' then e' else e) :: enl r q
  | _, _ => p
  end.

(** rtree_def.inl:165-187 enlarge_extent_to_fit: the result *)
Fixpoint grows (p c : box) : bool :=
  match p, c with
  | (s, e) :: r, (s', e') :: q => (s' <? s) || (e <? e') || grows r q
  | _, _ => false
  end.

(** rtree_def.inl:190-201 calc_area *)
Definition area (b : box) : Z := fold_right (fun i a => (snd i - fst i) * a) 1 b.

(** rtree_def.inl:204-225 calc_square_distance *)
Fixpoint dist2 (p q : point) : Z :=
  match p, q with
  | x :: r, y :: t => (y - x) * (y - x) + dist2 r t
  | _, _ => 0
  end.

(** rtree_def.inl:233-244 calc_half_margin *)
Definition margin (b : box) : Z := fold_right (fun i a => snd i - fst i + a) 0 b.

(** rtree_def.inl:256-277 calc_area_enlargement *)
Definition area_enl (host guest : box) : Z :=
  if grows host guest then area (enl host guest) - area host else 0.

(** rtree_def.inl:290-305 get_center_point *)
Definition center (b : box) : point := map (fun i => Z.quot (snd i + fst i) 2) b.

(** rtree_def.inl:279-287 calc_extent and 901-910 directory_node::calc_extent, which leaves the
    default extent for a node without children *)
Definition hull (d : nat) (l : list box) : box :=
  match l with
  | [] => repeat (0, 0) d
  | b :: r => fold_left enl r b
  end.

(** rtree_def.inl:307-334 min_value_pos, as the state (value, pos) or none when count is zero *)
Definition minpos (st : option (Z * nat)) (v : Z) (pos : nat) : option (Z * nat) :=
  match st with
  | Some (w, p) => if v <? w then Some (v, pos) else Some (w, p)
  | None => Some (v, pos)
  end.

(** rtree_def.inl:310-312 the position of a min_value_pos, zero when nothing was assigned *)
Definition pos_of (st : option (Z * nat)) : nat :=
  match st with Some (_, p) => p | None => O end.

Section Rt.
Context {V : Type}.

(** rtree.hpp:228-292 node_store with 336-368 value_node and directory_node:
    address, parent pointer, extent; for a directory also the type (leaf or
    non-leaf), count, valid_pointer and the children *)
Inductive nd :=
| NV (a : addr) (p : option addr) (b : box) (v : V)
| ND (a : addr) (p : option addr) (lf : bool) (b : box) (c : nat) (ok : bool) (ks : list nd).

(** rtree.hpp:228-292 the fields of a node_store *)
Definition na (n : nd) : addr := match n with NV a _ _ _ => a | ND a _ _ _ _ _ _ => a end.
(** rtree.hpp:236 *)
Definition npar (n : nd) : option addr := match n with NV _ p _ _ => p | ND _ p _ _ _ _ _ => p end.
(** rtree.hpp:235 *)
Definition nbox (n : nd) : box := match n with NV _ _ b _ => b | ND _ _ _ b _ _ _ => b end.
(** rtree.hpp:238 *)
Definition ncnt (n : nd) : nat := match n with NV _ _ _ _ => O | ND _ _ _ _ c _ _ => c end.
(** rtree.hpp:352 *)
Definition nkids (n : nd) : list nd := match n with NV _ _ _ _ => [] | ND _ _ _ _ _ _ ks => ks end.

(** rtree_def.inl:664-675 is_directory *)
Definition is_dir (n : nd) : bool := match n with NV _ _ _ _ => false | ND _ _ _ _ _ _ _ => true end.
(** rtree.hpp:77-83 the type directory_leaf *)
Definition is_leaf (n : nd) : bool := match n with NV _ _ _ _ => false | ND _ _ lf _ _ _ _ => lf end.

(** rtree.hpp:228-292 assignments to the fields of a node_store; [set_a] is the
    move of its content into another object (513-523) *)
Definition set_a (a : addr) (n : nd) : nd :=
  match n with NV _ p b v => NV a p b v | ND _ p lf b c ok ks => ND a p lf b c ok ks end.
(** rtree.hpp:230-236 *)
Definition set_par (p : option addr) (n : nd) : nd :=
  match n with NV a _ b v => NV a p b v | ND a _ lf b c ok ks => ND a p lf b c ok ks end.
(** rtree.hpp:230-236 *)
Definition set_box (b : box) (n : nd) : nd :=
  match n with NV a p _ v => NV a p b v | ND a p lf _ c ok ks => ND a p lf b c ok ks end.
(** rtree.hpp:230-236 *)
Definition set_ok (ok : bool) (n : nd) : nd :=
  match n with NV a p b v => NV a p b v | ND a p lf b c _ ks => ND a p lf b c ok ks end.
(** rtree.hpp:230-236 *)
Definition set_kids (c : nat) (ks : list nd) (n : nd) : nd :=
  match n with NV a p b v => NV a p b v | ND a p lf b _ ok _ => ND a p lf b c ok ks end.

(** rtree.hpp:228-234 the object at an address: the deref of a node_store pointer *)
Fixpoint get (a : addr) (n : nd) : option nd :=
  if Nat.eqb (na n) a then Some n
  else match n with
       | NV _ _ _ _ => None
       | ND _ _ _ _ _ _ ks =>
           (fix go (l : list nd) : option nd :=
              match l with
              | [] => None
              | k :: r => match get a k with Some x => Some x | None => go r end
              end) ks
       end.

(** rtree.hpp:228-236 assignment to the object at an address *)
Fixpoint upd (a : addr) (x : nd) (n : nd) : nd :=
  if Nat.eqb (na n) a then x
  else match n with
       | NV _ _ _ _ => n
       | ND a' p lf b c ok ks => ND a' p lf b c ok (map (upd a x) ks)
       end.

(** Number of node_store objects in a tree: bounds the length of an upward walk
    that ends (rtree_def.inl:659, 1381, 1419, 2558-2575) *)
Fixpoint nnodes (n : nd) : nat :=
  match n with
  | NV _ _ _ _ => 1%nat
  | ND _ _ _ _ _ _ ks => S (list_sum (map nnodes ks))
  end.

(** rtree.hpp:795 the only data member m_root; [nxt] is the next unused address *)
Record st := ST { root : nd; nxt : addr }.

(** Elements placed into new objects, in order (std::deque growth, rtree_def.inl:1227, 2216) *)
Fixpoint readdr (x : addr) (l : list nd) : list nd :=
  match l with [] => [] | k :: r => set_a x k :: readdr (S x) r end.

(** Contents placed into existing objects, in order (std::sort,
    std::remove_if: rtree_def.inl:2321, 2394) *)
Fixpoint reslot (slots : list addr) (l : list nd) : list nd :=
  match slots, l with
  | a :: s, k :: r => set_a a k :: reslot s r
  | _, _ => []
  end.

Variable C : cfg.

(** rtree_def.inl:592-606 create_leaf_directory_node, create_nonleaf_directory_node *)
Definition create_dir (a : addr) (lf : bool) : nd :=
  ND a None lf (hull (dims C) []) O false [].

(** rtree_def.inl:633-653 pack *)
Definition pack (n : nd) : nd * bool :=
  match n with
  | NV _ _ _ _ => (n, false)
  | ND _ _ _ b _ _ ks =>
      let nb := hull (dims C) (map nbox ks) in (set_box nb n, negb (box_eqb nb b))
  end.

(** rtree_def.inl:656-661 pack_upward, from the parent pointer given *)
Fixpoint pack_upward (fuel : nat) (t : nd) (p : option addr) : res nd :=
  match p with
  | None => Ok t
  | Some a =>
      match fuel with
      | O => Undef
      | S f =>
          let* n := deref (get a t) in
          let (n', ch) := pack n in
          let t' := upd a n' t in
          if ch then pack_upward f t' (npar n) else Ok t'
      end
  end.

(** rtree_def.inl:704-720 reset_parent_pointers_of_children (the child's own pointer is set
    after, not before, the recursive call, which does not read it) *)
Fixpoint reset_kids (n : nd) : nd :=
  match n with
  | NV _ _ _ _ => n
  | ND a p lf b c ok ks =>
      if ok then n
      else ND a p lf b c true (map (fun k => set_par (Some a) (reset_kids k)) ks)
  end.

(** rtree_def.inl:723-727 reset_parent_pointers *)
Definition reset (n : nd) : nd := reset_kids (set_ok false n).

(** rtree_def.inl:684-690 exceeds_capacity *)
Definition exceeds (n : nd) : bool :=
  match n with
  | NV _ _ _ _ => false
  | ND _ _ lf _ c _ _ => if lf then Nat.ltb (mx C) c else false
  end.

(** rtree_def.inl:913-922 calc_overlap_cost *)
Definition overlap_cost (ks : list nd) (bb : box) : Z :=
  fold_left (fun a k => a + volume (nbox k) bb) ks 0.

(** rtree_def.inl:818-860 get_child_with_minimal_overlap: the children not yet looked at, and
    the values of the best one so far.  A child that is a value node is cast to a
    directory (830) *)
Fixpoint min_overlap (ks : list nd) (bb : box) (best : option (Z * Z * Z * nd)) : res nd :=
  match ks with
  | [] => match best with Some (_, _, _, k) => Ok k | None => Undef end
  | NV _ _ _ _ :: _ => Undef
  | (ND _ _ _ b _ _ gs as k) :: r =>
      let o := overlap_cost gs bb in
      let e := area_enl b bb in
      let w := area b in
      match best with
      | None => min_overlap r bb (Some (o, e, w, k))
      | Some (o', e', w', _) =>
          if (o <? o') || (e <? e') || (w <? w') then min_overlap r bb (Some (o, e, w, k))
          else min_overlap r bb best
      end
  end.

(** rtree_def.inl:862-898 get_child_with_minimal_area_enlargement *)
Fixpoint min_area (ks : list nd) (bb : box) (best : option (Z * Z * nd)) : res nd :=
  match ks with
  | [] => match best with Some (_, _, k) => Ok k | None => Undef end
  | k :: r =>
      let e := area_enl (nbox k) bb in
      let w := area (nbox k) in
      match best with
      | None => min_area r bb (Some (e, w, k))
      | Some (e', w', _) =>
          if (e <? e') || (w <? w') then min_area r bb (Some (e, w, k))
          else min_area r bb best
      end
  end.

(** rtree_def.inl:925-934 has_leaf_directory *)
Definition has_leaf (ks : list nd) : bool := existsb is_leaf ks.

(** rtree_def.inl:2428-2458 find_leaf_directory_node_for_insertion; [fuel] counts the
    iterations left of the loop, which throws at its end *)
Fixpoint find_leaf (fuel i : nat) (bb : box) (n : nd) : res (addr * nat) :=
  match fuel with
  | O => Throw E_general
  | S f =>
      match n with
      | NV _ _ _ _ => Undef
      | ND a _ true _ _ _ _ => Ok (a, i)
      | ND _ _ false _ _ _ ks =>
          let* k := (if has_leaf ks then min_overlap ks bb None else min_area ks bb None) in
          find_leaf f (S i) bb k
      end
  end.

(** rtree_def.inl:2394-2399 the order of sort_dir_store_by_dimension *)
Definition dim_lt (dim : nat) (x y : nd) : bool :=
  let '(s1, e1) := nth dim (nbox x) (0, 0) in
  let '(s2, e2) := nth dim (nbox y) (0, 0) in
  if negb (s1 =? s2) then s1 <? s2 else e1 <? e2.

(** rtree_def.inl:2392-2403 sort_dir_store_by_dimension *)
Definition sort_dim (dim : nat) (ks : list nd) : list nd :=
  map (set_ok false) (reslot (map na ks) (srt C nd (dim_lt dim) ks)).

(** rtree.hpp:136 max_dist_size *)
Definition max_dist : nat := (mx C - mn C * 2 + 2)%nat.

(** rtree_def.inl:2359-2380 the sum of the margins of all distributions *)
Definition sum_margins (ks : list nd) : Z :=
  fold_left (fun a dist =>
      let k := (mn C - 1 + dist)%nat in
      a + (margin (hull (dims C) (map nbox (firstn k ks))) +
           margin (hull (dims C) (map nbox (skipn k ks)))))
    (seq 1 max_dist) 0.

(** rtree_def.inl:2346-2389 sort_dir_store_by_split_dimension *)
Definition sort_split (ks : list nd) : list nd :=
  let '(ks, m) := fold_left (fun (s : list nd * option (Z * nat)) dim =>
      let ks := sort_dim dim (fst s) in (ks, minpos (snd s) (sum_margins ks) dim))
    (seq 0 (dims C)) (ks, None) in
  sort_dim (pos_of m) ks.

(** rtree_def.inl:2406-2425 pick_optimal_distribution *)
Definition pick_dist (ks : list nd) : nat :=
  pos_of (fold_left (fun m dist =>
      let k := (mn C - 1 + dist)%nat in
      minpos m (volume (hull (dims C) (map nbox (firstn k ks)))
                       (hull (dims C) (map nbox (skipn k ks)))) dist)
    (seq 1 max_dist) None).

(** rtree_def.inl:2194-2271 split_node on the object at address [a]; [fuel] bounds the walk to
    the root *)
Fixpoint split_node (fuel : nat) (s : st) (a : addr) : res st :=
  match fuel with
  | O => Undef
  | S f =>
      let* n := deref (get a (root s)) in
      match n with
      | NV _ _ _ _ => Undef
      | ND _ p lf b _ ok ks =>
          let ks := sort_split ks in
          let k := (mn C - 1 + pick_dist ks)%nat in (* rtree.hpp:316-326 *)
          let x := nxt s in
          let k2 := readdr x (skipn k ks) in
          let x := (x + length k2)%nat in
          let g2 := fst (pack (set_kids (length k2) k2 (create_dir x lf))) in (* 2209-2220 *)
          let n := fst (pack (ND a p lf b k ok (firstn k ks))) in             (* 2223-2226 *)
          match p with
          | None =>                                                          (* 2228-2245 *)
              if negb (Nat.eqb a (na (root s))) then Undef
              else
                let g1 := set_par (Some a) (set_a (S x) n) in
                let g2 := set_par (Some a) g2 in
                let r := fst (pack (set_kids 2 [g1; g2] (create_dir a false))) in
                Ok (ST (set_kids 2 (map reset_kids (nkids r)) r) (S (S x)))
          | Some pa =>                                                       (* 2248-2269 *)
              let t := upd a n (root s) in
              let* pn := deref (get pa t) in
              match pn with
              | NV _ _ _ _ => Undef
              | ND _ _ _ _ c _ pks =>
                  let g2 := set_par (Some pa) g2 in
                  let (pn', ch) := pack (set_kids (S c) (pks ++ [g2]) pn) in
                  let t := upd pa pn' t in
                  let t := upd a (reset n) t in
                  let t := upd x (reset_kids g2) t in
                  let s' := ST t (S x) in
                  if Nat.ltb (mx C) (S c) then split_node f s' pa
                  else if ch then
                    let* t := pack_upward (nnodes t) t (npar pn) in Ok (ST t (S x))
                  else Ok s'
              end
          end
      end
  end.

(** rtree_def.inl:1381-1385 and 1419-1423, the propagation of a box to the root *)
Fixpoint enlarge_up (fuel : nat) (t : nd) (p : option addr) (bb : box) : res nd :=
  match p with
  | None => Ok t
  | Some a =>
      match fuel with
      | O => Undef
      | S f =>
          let* n := deref (get a t) in
          enlarge_up f (upd a (set_box (enl (nbox n) bb) n) t) (npar n) bb
      end
  end.

(** rtree_def.inl:1373-1385 and 1411-1423: the box of the receiving node, then of its ancestors *)
Definition enlarge_from (s : st) (n : nd) (bb : box) : res st :=
  let nb := if Nat.eqb (ncnt n) 1 then bb else enl (nbox n) bb in
  let t := upd (na n) (set_box nb n) (root s) in
  let* t := enlarge_up (nnodes t) t (npar n) nb in
  Ok (ST t (nxt s)).

(** rtree_def.inl:2287-2307 the positions of the children, nearest first *)
Definition by_distance (b : box) (ks : list nd) : list nat :=
  map snd (srt C (Z * nat) (fun l r => fst l <? fst r)
             (combine (map (fun k => dist2 (center b) (center (nbox k))) ks)
                      (seq 0 (length ks)))).

(** rtree_def.inl:2314-2318 the children at the positions given *)
Fixpoint at_positions (ps : list nat) (ks : list nd) : list nd :=
  match ps with
  | [] => []
  | i :: r => match nth_error ks i with Some k => k :: at_positions r ks | None => at_positions r ks end
  end.

(** rtree_def.inl:2321-2325 the children at the other positions *)
Fixpoint not_at (i : nat) (ps : list nat) (ks : list nd) : list nd :=
  match ks with
  | [] => []
  | k :: r => if existsb (Nat.eqb i) ps then not_at (S i) ps r else k :: not_at (S i) ps r
  end.

(** the set reinserted_depths (rtree_def.inl:1322, 1332): none for a null pointer *)
Definition depths := option (list nat).

(** rtree_def.inl:1337-1386 insert of a value node, with 2274-2343 perform_forced_reinsertion;
    [fuel] bounds the nesting of forced reinsertions *)
Fixpoint insert_ns (fuel : nat) (s : st) (bb : box) (v : V) (rd : depths) : res (st * depths) :=
  let* (a, depth) := find_leaf (S (maxdepth C)) 0 bb (root s) in
  let* n := deref (get a (root s)) in
  match n with
  | NV _ _ _ _ => Undef
  | ND _ p lf b c ok ks =>
      let n := ND a p lf b (S c) ok (ks ++ [NV (nxt s) (Some a) bb v]) in
      let s := ST (upd a n (root s)) (S (nxt s)) in
      if exceeds n then
        match rd with
        | Some ds =>
            if forced C && negb (existsb (Nat.eqb depth) ds) then
              match fuel with
              | O => Undef
              | S f =>
                  let ps := firstn (reins C) (by_distance b (nkids n)) in   (* 2282-2318 *)
                  let out := at_positions ps (nkids n) in
                  let rest := not_at 0 ps (nkids n) in
                  let rest := reslot (map na (nkids n)) rest in
                  let (n', ch) := pack (ND a p lf b (S c - reins C) ok rest) in
                  let t := upd a n' (root s) in
                  let* t := (if ch then pack_upward (nnodes t) t p else Ok t) in (* 2331-2332 *)
                  (fix go (l : list nd) (s : st) (rd : depths) : res (st * depths) :=
                     match l with
                     | [] => Ok (s, rd)
                     | NV _ _ b' v' :: r =>
                         let* (s, rd) := insert_ns f s b' v' rd in go r s rd
                     | ND _ _ _ _ _ _ _ :: _ => Undef
                     end) out (ST t (nxt s)) (Some (depth :: ds))
              end
            else
              let* s := split_node (nnodes (root s)) s a in Ok (s, rd)
        | None => let* s := split_node (nnodes (root s)) s a in Ok (s, rd)
        end
      else
        let* s := enlarge_from s n bb in Ok (s, rd)
  end.

(** rtree_def.inl:1293-1334 insert *)
Definition insert (bb : box) (v : V) (s : st) : res st :=
  let* (s, _) := insert_ns (S (S (maxdepth C))) s bb v (Some []) in Ok s.

(** rtree_def.inl:1304-1314 insert of a point *)
Definition insert_pt (p : point) (v : V) (s : st) : res st :=
  insert (map (fun x => (x, x)) p) v s.

(** rtree_def.inl:2461-2490 find_nonleaf_directory_node_for_insertion *)
Fixpoint find_nonleaf (fuel i : nat) (bb : box) (max_depth : nat) (n : nd) : res addr :=
  match fuel with
  | O => Throw E_general
  | S f =>
      match n with
      | NV _ _ _ _ => Undef
      | ND a _ _ _ c _ ks =>
          if Nat.eqb c 0 then Ok a
          else if Nat.eqb i max_depth then Ok a
          else if has_leaf ks then Ok a
          else
            let* k := min_area ks bb None in
            find_nonleaf f (S i) bb max_depth k
      end
  end.

(** rtree_def.inl:1389-1424 insert_dir *)
Definition insert_dir (s : st) (d : nd) (max_depth : nat) : res st :=
  let bb := nbox d in
  let* a := find_nonleaf (S (maxdepth C)) 0 bb max_depth (root s) in
  let* n := deref (get a (root s)) in
  match n with
  | NV _ _ _ _ => Undef
  | ND _ p lf b c ok ks =>
      let d := reset_kids (set_ok false (set_par (Some a) (set_a (nxt s) d))) in
      let n := ND a p lf b (S c) ok (ks ++ [d]) in
      let s := ST (upd a n (root s)) (S (nxt s)) in
      if exceeds n then split_node (nnodes (root s)) s a
      else enlarge_from s n bb
  end.

(** rtree_def.inl:2527-2555 search_descend: address, depth, box and value of the results *)
Fixpoint search_descend (dc vc : box -> bool) (depth : nat) (n : nd) : list (addr * nat * box * V) :=
  match n with
  | NV a _ b v => if vc b then [(a, depth, b, v)] else []
  | ND _ _ _ b _ _ ks =>
      if dc b then flat_map (search_descend dc vc (S depth)) ks else []
  end.

(** rtree_def.inl:1490-1552 search(extent, overlap) *)
Definition search_overlap (q : box) (s : st) :=
  search_descend (fun b => intersects q b) (fun b => intersects q b) 0 (root s).
(** rtree_def.inl:1490-1552 search(extent, match) *)
Definition search_match (q : box) (s : st) :=
  search_descend (fun b => contains b q) (fun b => box_eqb b q) 0 (root s).
(** rtree_def.inl:1427-1488 search(point, overlap) *)
Definition search_pt_overlap (q : point) (s : st) :=
  search_descend (fun b => contains_pt b q) (fun b => contains_pt b q) 0 (root s).
(** rtree_def.inl:1427-1488 search(point, match) *)
Definition search_pt_match (q : point) (s : st) :=
  search_descend (fun b => contains_pt b q) (fun b => box_is_point b q) 0 (root s).

(** rtree_def.inl:749-761 erase_child with 792-816 directory_node::erase: the new node, the
    next unused address, and whether the child was found *)
Fixpoint find_kid (a : addr) (i : nat) (ks : list nd) : option nat :=
  match ks with
  | [] => None
  | k :: r => if Nat.eqb (na k) a then Some i else find_kid a (S i) r
  end.
(** rtree_def.inl:749-761, 792-816 *)
Definition erase_child (x : addr) (a : addr) (n : nd) : nd * addr :=
  match n with
  | NV _ _ _ _ => (n, x)
  | ND _ _ _ _ c _ ks =>
      match find_kid a 0 ks with
      | None => (n, x)
      | Some i =>
          let ks' := firstn i ks ++ skipn (S i) ks in
          if Nat.eqb i 0 || Nat.eqb i (length ks - 1)
          then (set_kids (c - 1) ks' n, x)
          else (set_kids (c - 1) (map (set_ok false) (readdr x ks')) n, (x + length ks')%nat)
      end
  end.

(** rtree_def.inl:2558-2575 shrink_tree_upward *)
Fixpoint shrink (fuel : nat) (t : nd) (p : option addr) (bb : box) : res nd :=
  match p with
  | None => Ok t
  | Some a =>
      match fuel with
      | O => Undef
      | S f =>
          let* n := deref (get a t) in
          if at_boundary (nbox n) bb then
            let (n', ch) := pack n in
            let t' := upd a n' t in
            if ch then shrink f t' (npar n) (nbox n) else Ok t'
          else Ok t
      end
  end.

(** rtree_def.inl:1617-1639 the loop that dissolves underfilled directories; [d] is the depth
    of the directory, the result holds the orphaned directories with the depth
    they were at, the one to reinsert first in front *)
Fixpoint dissolve (fuel : nat) (s : st) (a : addr) (d : nat) (orphans : list (nd * nat))
  : res (st * list (nd * nat)) :=
  match fuel with
  | O => Undef
  | S f =>
      let* n := deref (get a (root s)) in
      match npar n with
      | None => Ok (s, orphans)
      | Some pa =>
          if Nat.ltb (ncnt n) (mn C) then
            let orphans := map (fun k => (k, S d)) (nkids n) ++ orphans in
            let t := upd a (set_kids (ncnt n) [] n) (root s) in
            let* pn := deref (get pa t) in
            let (pn, x) := erase_child (nxt s) a pn in
            let pn := fst (pack (reset_kids pn)) in
            dissolve f (ST (upd pa pn t) x) pa (d - 1) orphans
          else Ok (s, orphans)
      end
  end.

(** rtree_def.inl:1641-1646 reinsertion of the orphaned directories *)
Fixpoint reinsert_dirs (l : list (nd * nat)) (s : st) : res st :=
  match l with
  | [] => Ok s
  | (d, depth) :: r => let* s := insert_dir s d depth in reinsert_dirs r s
  end.

(** rtree_def.inl:1648-1652 reinsertion of the orphaned values, the last one first *)
Fixpoint reinsert_vals (l : list nd) (s : st) : res st :=
  match l with
  | [] => Ok s
  | NV _ _ b v :: r => let* (s, _) := insert_ns 0 s b v None in reinsert_vals r s
  | ND _ _ _ _ _ _ _ :: _ => Undef
  end.

(** rtree_def.inl:1654-1667 the only child of the root becomes the root *)
Definition collapse (s : st) : res st :=
  let r := root s in
  if Nat.eqb (ncnt r) 1 then
    match rev (nkids r) with
    | k :: _ => Ok (ST (reset (set_par None (set_a (na r) k))) (nxt s))
    | [] => Undef
    end
  else Ok s.

(** rtree_def.inl:1555-1668 erase of the value at address [a] found at depth [depth] *)
Definition erase (a : addr) (depth : nat) (s : st) : res st :=
  let* v := deref (get a (root s)) in
  let bb := nbox v in
  let* pa := deref (npar v) in
  let* n := deref (get pa (root s)) in
  let (n, x) := erase_child (nxt s) a n in
  let t := upd pa n (root s) in
  match npar n with
  | None => let* t := shrink (nnodes t) t (Some pa) bb in Ok (ST t x)        (* 1582-1586 *)
  | Some ga =>
      if Nat.leb (mn C) (ncnt n) then                                        (* 1588-1593 *)
        let* t := shrink (nnodes t) t (Some pa) bb in Ok (ST t x)
      else                                                                   (* 1595-1652 *)
        let vals := nkids n in
        let t := upd pa (set_kids (ncnt n) [] n) t in
        let* g := deref (get ga t) in
        let (g, x) := erase_child x pa g in
        let g := fst (pack (reset g)) in
        let* (s, dirs) := dissolve (nnodes t) (ST (upd ga g t) x) ga (depth - 2) [] in
        let* s := reinsert_dirs dirs s in
        let* s := reinsert_vals (rev vals) s in
        collapse s
  end.

(** rtree_def.inl:1238-1247 the default constructor *)
Definition init : st := ST (create_dir O true) 1%nat.

(** rtree_def.inl:1703-1707 clear: m_root stays where it is *)
Definition clear (s : st) : st := ST (create_dir (na (root s)) true) (nxt s).

(** rtree_def.inl:1671-1674 extent *)
Definition extent (s : st) : box := nbox (root s).
(** rtree_def.inl:1677-1680 empty *)
Definition empty (s : st) : bool := Nat.eqb (ncnt (root s)) 0.
(** rtree_def.inl:1683-1692 size with 2494-2523 descend_with_func *)
Fixpoint nvals (n : nd) : nat :=
  match n with
  | NV _ _ _ _ => 1%nat
  | ND _ _ _ _ _ _ ks => list_sum (map nvals ks)
  end.
(** rtree_def.inl:1683-1692 size *)
Definition size (s : st) : nat := nvals (root s).

(** rtree_def.inl:1710-1714 walk with 2494-2523 descend_with_func: the extents visited, with
    whether the node is a value *)
Fixpoint walk_from (n : nd) : list (bool * box) :=
  match n with
  | NV _ _ b _ => [(true, b)]
  | ND _ _ _ b _ _ ks => (false, b) :: flat_map walk_from ks
  end.
(** rtree_def.inl:1710-1714 *)
Definition walk (s : st) : list (bool * box) := walk_from (root s).

(** rtree_def.inl:552-589 clone; the new objects get the addresses of the old ones plus an
    offset that makes them new *)
Fixpoint clone (off : addr) (n : nd) : nd :=
  match n with
  | NV a _ b v => NV (off + a)%nat None b v
  | ND a _ lf b c _ ks => ND (off + a)%nat None lf b c false (map (clone off) ks)
  end.

(** rtree_def.inl:1261-1264 copy constructor *)
Definition copy (s : st) : st := ST (reset (clone (nxt s) (root s))) (nxt s + nxt s)%nat.

(** rtree_def.inl:1267-1270, and 1250-1258 for the container moved to: the root moves into a
    new object *)
Definition rehome (s : st) : st := ST (reset (set_a (nxt s) (root s))) (S (nxt s)).

(** rtree_def.inl:1250-1258 move constructor: the new container and the one moved from *)
Definition move (s : st) : st * st := (rehome s, init).

(** rtree_def.inl:1695-1700 swap.  The two roots keep their objects; as each container of the
    model has addresses of its own, the tree that arrives gets a new root
    address.  Pointers of one container never lead into the other one *)
Definition swap (s1 s2 : st) : st * st := (rehome s2, rehome s1).

(** rtree_def.inl:1277-1282 copy assignment to [dst] *)
Definition assign (dst src : st) : st := fst (swap dst (copy src)).
(** rtree_def.inl:1285-1290 move assignment: the target and the source *)
Definition move_assign (dst src : st) : st * st :=
  let (tmp, src) := move src in (fst (swap dst tmp), src).

(** rtree_def.inl:41-63 calc_optimal_segment_size_for_pack *)
Fixpoint opt_up (fuel size count : nat) : option nat :=
  match fuel with
  | O => None
  | S f =>
      let m := Nat.modulo count size in
      if Nat.eqb m 0 || Nat.leb (mn C) m then Some size else opt_up f (S size) count
  end.
(** rtree_def.inl:52-59 *)
Fixpoint opt_down (fuel size count : nat) : option nat :=
  match fuel with
  | O => None
  | S f =>
      if Nat.ltb (mn C) size then
        let m := Nat.modulo count size in
        if Nat.eqb m 0 || Nat.leb (mn C) m then Some size else opt_down f (size - 1) count
      else None
  end.
(** rtree_def.inl:41-63 *)
Definition opt_size (init count : nat) : nat :=
  match opt_up (mx C - init) init count with
  | Some k => k
  | None => match opt_down init (init - 1) count with Some k => k | None => init end
  end.

(** rtree_def.inl:1172-1189 a segment cut into pieces of [k] elements and a rest *)
Fixpoint chunk (fuel k : nat) (l : list nd) : list (list nd) :=
  match fuel with
  | O => []
  | S f => match l with [] => [] | _ :: _ => firstn k l :: chunk f k (skipn k l) end
  end.

(** rtree_def.inl:1159-1165 the order by the middle of the boxes (compared exactly, not in
    single precision) *)
Definition mid_lt (dim : nat) (x y : nd) : bool :=
  let '(s1, e1) := nth dim (nbox x) (0, 0) in
  let '(s2, e2) := nth dim (nbox y) (0, 0) in
  e1 + s1 <? e2 + s2.

(** rtree_def.inl:1148-1190 one segment in one dimension; [n] is n_splits_per_dim *)
Definition split_seg (n dim : nat) (seg : list nd) : list (list nd) :=
  if Nat.leb (length seg) (mx C) then [seg]
  else
    let l := srt C nd (mid_lt dim) seg in
    let k := opt_size (Nat.div (length seg + n - 1) n) (length seg) in
    chunk (length l) k l.

(** rtree_def.inl:1141-1201 all dimensions *)
Fixpoint split_segs (n : nat) (dims : list nat) (segs : list (list nd)) : list (list nd) :=
  match dims with
  | [] => segs
  | dim :: r =>
      match segs with
      | seg :: _ =>
          if Nat.leb (length seg) (mx C) then segs
          else split_segs n r (flat_map (split_seg n dim) segs)
      | [] => segs
      end
  end.

(** rtree_def.inl:1217-1232 one directory per segment *)
Fixpoint make_dirs (x : addr) (lf : bool) (segs : list (list nd)) : list nd * addr :=
  match segs with
  | [] => ([], x)
  | seg :: r =>
      let ks := readdr x seg in
      let x := (x + length ks)%nat in
      let d := fst (pack (set_kids (length ks) ks (create_dir x lf))) in
      let (ds, x) := make_dirs (S x) lf r in
      (d :: ds, x)
  end.

(** rtree_def.inl:1130-1235 pack_level *)
Definition pack_level (x : addr) (depth : nat) (store : list nd) : list nd * addr :=
  let segs := split_segs (spl C (length store)) (seq 0 (dims C)) [store] in
  make_dirs x (Nat.eqb depth 0) segs.

(** rtree_def.inl:1103-1127 bulk_loader::pack; [fuel] bounds the number of levels *)
Fixpoint bulk_levels (fuel : nat) (x : addr) (depth : nat) (store : list nd) : res st :=
  if Nat.ltb (mx C) (length store) then
    match fuel with
    | O => Undef
    | S f => let (store, x) := pack_level x depth store in bulk_levels f x (S depth) store
    end
  else
    let r := fst (pack (set_kids (length store) store (create_dir x (Nat.eqb depth 0)))) in
    Ok (rehome (ST r (S x))).

(** rtree_def.inl:1061-1127 the bulk loader fed with a list of entries *)
Definition bulk_load (l : list (box * V)) : res st :=
  bulk_levels (length l) (length l) 0
    (readdr O (map (fun e => NV O None (fst e) (snd e)) l)).

(** rtree_def.inl:1717-1925 check_integrity: false where it throws; [emin] is
    error_on_min_node_size *)
Fixpoint check_node (emin : bool) (parent : option nd) (n : nd) : bool :=
  match parent with
  | None => true
  | Some (NV _ _ _ _) => false
  | Some (ND pa _ plf pb _ _ _) =>
      match npar n with Some q => Nat.eqb q pa | None => false end &&
      contains pb (nbox n) &&
      (if is_dir n then negb plf else plf)
  end &&
  match n with
  | NV _ _ _ _ => true
  | ND a p lf b c ok ks =>
      Nat.eqb c (length ks) &&
      (match p with None => lf | Some _ => false end || negb emin || Nat.leb (mn C) c) &&
      Nat.leb c (mx C) &&
      box_eqb (hull (dims C) (map nbox ks)) b &&
      forallb (check_node emin (Some n)) ks
  end.
(** rtree_def.inl:1717-1732, 1921-1924 *)
Definition check_integrity (emin : bool) (s : st) : bool :=
  match root s with
  | NV _ _ _ _ => false
  | ND _ p _ _ _ _ _ => match p with Some _ => false | None => check_node emin None (root s) end
  end.

End Rt.
Arguments nd V : clear implicits.
Arguments st V : clear implicits.
