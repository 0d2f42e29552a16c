(** Model of mdds::point_quad_tree (include/mdds/point_quad_tree.hpp and
    include/mdds/quad_node.hpp).

    Keys are mathematical integers: overflow of [dx], [dy] and [dx + dy] in
    find_candidate_in_quad is not modelled.  A tree is a value of the inductive
    type [qt]; [QE] is the null pointer.  The nodes own their children through
    intrusive pointers and also hold a pointer to their parent; the parent
    pointer is read by disconnect_node_from_parent only (quad_node.hpp:238-264),
    which throws when the node it points to does not lead back.  So the model
    keeps one bit per node, [lk]: whether the parent pointer of the node points
    to the node it hangs from.  remove() is the only function that leaves the bit
    false: the node it recycles takes over the parent pointer of the replacement
    (point_quad_tree.hpp:843), and the child it takes over keeps the replacement
    as its parent (849-861).  In both cases the node pointed to is the recycled
    node itself or has been cut out of the tree and has no child link to the node
    in question, so that disconnecting throws.  The bit of the root is never
    read.  m_xrange and m_yrange are only read by dump_tree_svg and are left out,
    as are the debug and svg functions. *)

From Coq Require Import List ZArith Lia Bool.
From Verif Require Import Base.
Import ListNotations.
Open Scope Z_scope.

(** quad_node.hpp:28-35 node_quadrant_t (without quad_unspecified) *)
Inductive quad := NE | NW | SE | SW.

(** quad_node.hpp:66-72 direction_t *)
Inductive dir := DN | DW | DS | DE.

(** quad_node.hpp:74-90 opposite *)
Definition opposite (q : quad) : quad :=
  match q with NE => SW | NW => SE | SE => NW | SW => NE end.

Section Pqt.
Context {V : Type}.

(** quad_node.hpp:92-107 quad_node_base and point_quad_tree.hpp:100-126 node;
    [lk] stands for the parent pointer, see above *)
Inductive qt :=
| QE
| QN (lk : bool) (x y : Z) (v : V) (ne nw se sw : qt).

(** quad_node.hpp:170-178 get_quadrant of the node at (x, y) *)
Definition get_quadrant (x y ox oy : Z) : quad :=
  if ox <? x then (if oy <? y then NW else SW)
  else (if oy <? y then NE else SE).

(** quad_node.hpp:180-219 has_quadrant_node, get_quadrant_node *)
Definition child (q : quad) (t : qt) : qt :=
  match t with
  | QE => QE
  | QN _ _ _ _ ne nw se sw =>
      match q with NE => ne | NW => nw | SE => se | SW => sw end
  end.

(** quad_node.hpp:101-105, assignment to one of the four child pointers *)
Definition set_child (q : quad) (c t : qt) : qt :=
  match t with
  | QE => QE
  | QN k x y v ne nw se sw =>
      match q with
      | NE => QN k x y v c nw se sw
      | NW => QN k x y v ne c se sw
      | SE => QN k x y v ne nw c sw
      | SW => QN k x y v ne nw se c
      end
  end.

(** quad_node.hpp:101, assignment to the parent pointer *)
Definition set_link (b : bool) (t : qt) : qt :=
  match t with QE => QE | QN _ x y v ne nw se sw => QN b x y v ne nw se sw end.

(** quad_node.hpp:132-135 leaf *)
Definition leaf (t : qt) : bool :=
  match t with QN _ _ _ _ QE QE QE QE => true | _ => false end.

(** point_quad_tree.hpp:628-701 insert; the walk of [cur_node] is the recursion *)
Fixpoint insert (x y : Z) (v : V) (t : qt) : qt :=
  match t with
  | QE => QN true x y v QE QE QE QE
  | QN k cx cy cv ne nw se sw =>
      if (cx =? x) && (cy =? y) then QN k cx cy v ne nw se sw
      else match get_quadrant cx cy x y with
           | NE => QN k cx cy cv (insert x y v ne) nw se sw
           | NW => QN k cx cy cv ne (insert x y v nw) se sw
           | SE => QN k cx cy cv ne nw (insert x y v se) sw
           | SW => QN k cx cy cv ne nw se (insert x y v sw)
           end
  end.

(** point_quad_tree.hpp:1105-1188 find_node, find_node_ptr *)
Fixpoint find_node (x y : Z) (t : qt) : qt :=
  match t with
  | QE => QE
  | QN k cx cy cv ne nw se sw =>
      if (cx =? x) && (cy =? y) then t
      else match get_quadrant cx cy x y with
           | NE => find_node x y ne
           | NW => find_node x y nw
           | SE => find_node x y se
           | SW => find_node x y sw
           end
  end.

(** point_quad_tree.hpp:725-732 find; data_not_found is shown as E_general *)
Definition find (x y : Z) (t : qt) : res V :=
  match find_node x y t with
  | QE => Throw E_general
  | QN _ _ _ v _ _ _ _ => Ok v
  end.

(** quad_node.hpp:44-55 search_region_space_t *)
Inductive space := R_NW | R_N | R_NE | R_E | R_SE | R_S | R_SW | R_W | R_C.

(** quad_node.hpp:299-349 get_search_region_space; the asserts, which fail only
    for windows with x2 < x1 or y2 < y1, are left out *)
Definition region_space (x y x1 y1 x2 y2 : Z) : space :=
  if x <? x1 then
    (if y <? y1 then R_NW else if (y1 <=? y) && (y <=? y2) then R_W else R_SW)
  else if (x1 <=? x) && (x <=? x2) then
    (if y <? y1 then R_N else if (y1 <=? y) && (y <=? y2) then R_C else R_S)
  else
    (if y <? y1 then R_NE else if (y1 <=? y) && (y <=? y2) then R_E else R_SE).

(** point_quad_tree.hpp:28-78 search_region_node; both overloads of
    search_region (703-723) use it, and the [result] inserter is shown as the
    list of the nodes passed to it *)
Fixpoint search_region (x1 y1 x2 y2 : Z) (t : qt) : list (Z * Z * V) :=
  match t with
  | QE => []
  | QN _ x y v ne nw se sw =>
      let s := search_region x1 y1 x2 y2 in
      match region_space x y x1 y1 x2 y2 with
      | R_C => (x, y, v) :: s ne ++ s nw ++ s se ++ s sw
      | R_E => s nw ++ s sw
      | R_N => s se ++ s sw
      | R_NE => s sw
      | R_NW => s se
      | R_S => s ne ++ s nw
      | R_SE => s nw
      | R_SW => s ne
      | R_W => s ne ++ s se
      end
  end.

(** point_quad_tree.hpp:1023-1031 and 1091-1103 get_all_stored_data *)
Fixpoint stored (t : qt) : list (Z * Z * V) :=
  match t with
  | QE => []
  | QN _ x y v ne nw se sw => (x, y, v) :: stored ne ++ stored nw ++ stored se ++ stored sw
  end.

(** point_quad_tree.hpp:895-901 size, 1033-1045 count_all_nodes *)
Fixpoint size (t : qt) : nat :=
  match t with
  | QE => 0
  | QN _ _ _ _ ne nw se sw => S (size ne + size nw + size se + size sw)
  end.

(** point_quad_tree.hpp:889-893 empty *)
Definition empty (t : qt) : bool := match t with QE => true | _ => false end.

(** point_quad_tree.hpp:883-887 clear, 1528-1533 clear_all_nodes *)
Definition clear (t : qt) : qt := QE.

(** point_quad_tree.hpp:1047-1054 insert_data_from *)
Definition insert_data_from (r t : qt) : qt :=
  fold_left (fun a p => insert (fst (fst p)) (snd (fst p)) (snd p) a) (stored r) t.

(** point_quad_tree.hpp:616-620 copy constructor *)
Definition copy (r : qt) : qt := insert_data_from r QE.

(** point_quad_tree.hpp:909-917 operator= from another tree [r] *)
Definition assign (t r : qt) : qt := insert_data_from r (clear t).

(** point_quad_tree.hpp:909-917 operator= with [&r == this]: the source is read
    after it has been cleared *)
Definition assign_self (t : qt) : qt :=
  let t := clear t in insert_data_from t t.

Section Eq.
(** the < and == of the value type *)
Variables (vlt veq : V -> V -> bool).

(** point_quad_tree.hpp:497-507 node_data::sorter *)
Definition data_less (a b : Z * Z * V) : bool :=
  let '(ax, ay, av) := a in let '(bx, by_, bv) := b in
  if negb (ax =? bx) then ax <? bx
  else if negb (ay =? by_) then ay <? by_
  else vlt av bv.

(** point_quad_tree.hpp:1003-1004, std::sort modelled by insertion sort (the
    keys in a tree are distinct, so that every sort gives the same sequence) *)
Fixpoint sort_in (a : Z * Z * V) (l : list (Z * Z * V)) : list (Z * Z * V) :=
  match l with
  | [] => [a]
  | b :: r => if data_less b a then b :: sort_in a r else a :: l
  end.

(** point_quad_tree.hpp:1003-1004 the two calls of std::sort *)
Definition sort_data (l : list (Z * Z * V)) : list (Z * Z * V) := fold_right sort_in [] l.

(** point_quad_tree.hpp:492-495 node_data::operator== *)
Definition data_eq (a b : Z * Z * V) : bool :=
  let '(ax, ay, av) := a in let '(bx, by_, bv) := b in
  (ax =? bx) && (ay =? by_) && veq av bv.

(** point_quad_tree.hpp:1006-1020 the element-wise comparison *)
Fixpoint eq_list (l1 l2 : list (Z * Z * V)) : bool :=
  match l1, l2 with
  | [], [] => true
  | a :: r1, b :: r2 => if data_eq a b then eq_list r1 r2 else false
  | _, _ => false
  end.

(** point_quad_tree.hpp:919-926 operator==, 995-1021 equals *)
Definition equal (t r : qt) : bool :=
  let v1 := stored t in
  let v2 := stored r in
  if negb (Nat.eqb (length v1) (length v2)) then false
  else eq_list (sort_data v1) (sort_data v2).
End Eq.

(** point_quad_tree.hpp:1275-1276 the walk of find_candidate_in_quad *)
Fixpoint last_in (q : quad) (t : qt) : qt :=
  match t with
  | QE => QE
  | QN _ _ _ _ ne nw se sw =>
      match q with
      | NE => match ne with QE => t | _ => last_in q ne end
      | NW => match nw with QE => t | _ => last_in q nw end
      | SE => match se with QE => t | _ => last_in q se end
      | SW => match sw with QE => t | _ => last_in q sw end
      end
  end.

(** point_quad_tree.hpp:567-578 node_distance: the quadrant, the distance and
    the coordinates of the candidate; candidates come from distinct quadrants,
    so that comparing the nodes is comparing the quadrants *)
Definition cand : Type := quad * Z * Z * Z.

(** point_quad_tree.hpp:1289-1295 keeps the nearer of the candidates *)
Definition nearer (o : option cand) (c : cand) : option cand :=
  match o with
  | None => Some c
  | Some (q, d, x, y) => if (snd (fst (fst c))) <? d then Some c else o
  end.

(** point_quad_tree.hpp:1257-1296 find_candidate_in_quad on the three
    candidates (dx_node, dy_node, min_city_block_node) *)
Definition find_candidate (x y : Z) (d : qt) (q : quad)
  (st : option cand * option cand * option cand) : option cand * option cand * option cand :=
  match last_in (opposite q) (child q d) with
  | QE => st
  | QN _ rx ry _ _ _ _ _ =>
      let dx := if x <? rx then rx - x else x - rx in
      let dy := if y <? ry then ry - y else y - ry in
      let '(a, b, c) := st in
      (nearer a (q, dx, rx, ry), nearer b (q, dy, rx, ry), nearer c (q, dx + dy, rx, ry))
  end.

(** node_quadrant_t comparison, used at point_quad_tree.hpp:1229 *)
Definition quad_eqb (a b : quad) : bool :=
  match a, b with
  | NE, NE | NW, NW | SE, SE | SW, SW => true
  | _, _ => false
  end.

(** point_quad_tree.hpp:1190-1255 find_replacement_node: the quadrant the
    replacement was found in and its coordinates *)
Definition find_replacement (x y : Z) (d : qt) : option (quad * Z * Z) :=
  let '(a, b, c) :=
    find_candidate x y d SE (find_candidate x y d SW
      (find_candidate x y d NW (find_candidate x y d NE (None, None, None)))) in
  let second := match c with Some (q, _, rx, ry) => Some (q, rx, ry) | None => None end in
  match a, b with
  | Some (q, _, rx, ry), Some (q', _, _, _) =>
      if quad_eqb q q' && (quad_eqb q NW || quad_eqb q SE)
      then Some (q, rx, ry) else second
  | _, _ => second
  end.

(** point_quad_tree.hpp:1312-1313, the test for the hatched region *)
Definition hatched (x0 x1 y0 y1 x y : Z) : bool :=
  ((x0 <=? x) && (x <=? x1)) || ((y0 <=? y) && (y <=? y1)).

(** point_quad_tree.hpp:1298-1345 adjust_quad: the subtree that stays and the
    subtrees appended to insert_list.  Cutting a node whose parent pointer does
    not lead back throws (quad_node.hpp:262-263) *)
Fixpoint adjust_quad (x0 x1 y0 y1 : Z) (t : qt) (d : dir) (l : list qt) : res (qt * list qt) :=
  match t with
  | QE => Ok (QE, l)
  | QN k x y v ne nw se sw =>
      if hatched x0 x1 y0 y1 x y then
        (if k then Ok (QE, l ++ [t]) else Throw E_general)
      else match d with
        | DE => let* (ne', l1) := adjust_quad x0 x1 y0 y1 ne DE l in
                let* (se', l2) := adjust_quad x0 x1 y0 y1 se DE l1 in
                Ok (QN k x y v ne' nw se' sw, l2)
        | DN => let* (ne', l1) := adjust_quad x0 x1 y0 y1 ne DN l in
                let* (nw', l2) := adjust_quad x0 x1 y0 y1 nw DN l1 in
                Ok (QN k x y v ne' nw' se sw, l2)
        | DS => let* (se', l1) := adjust_quad x0 x1 y0 y1 se DS l in
                let* (sw', l2) := adjust_quad x0 x1 y0 y1 sw DS l1 in
                Ok (QN k x y v ne nw se' sw', l2)
        | DW => let* (nw', l1) := adjust_quad x0 x1 y0 y1 nw DW l in
                let* (sw', l2) := adjust_quad x0 x1 y0 y1 sw DW l1 in
                Ok (QN k x y v ne nw' se sw', l2)
        end
  end.

(** point_quad_tree.hpp:1347-1378 set_new_root; the walk of [cur_node] is the
    recursion *)
Fixpoint set_new_root (x0 x1 y0 y1 : Z) (t : qt) (d : quad) (l : list qt) : res (qt * list qt) :=
  match t with
  | QE => Ok (QE, l)
  | QN k x y v ne nw se sw =>
      match d with
      | NE => let* (se', l1) := adjust_quad x0 x1 y0 y1 se DE l in
              let* (nw', l2) := adjust_quad x0 x1 y0 y1 nw DN l1 in
              let* (ne', l3) := set_new_root x0 x1 y0 y1 ne d l2 in
              Ok (QN k x y v ne' nw' se' sw, l3)
      | NW => let* (ne', l1) := adjust_quad x0 x1 y0 y1 ne DN l in
              let* (sw', l2) := adjust_quad x0 x1 y0 y1 sw DW l1 in
              let* (nw', l3) := set_new_root x0 x1 y0 y1 nw d l2 in
              Ok (QN k x y v ne' nw' se sw', l3)
      | SE => let* (ne', l1) := adjust_quad x0 x1 y0 y1 ne DE l in
              let* (sw', l2) := adjust_quad x0 x1 y0 y1 sw DS l1 in
              let* (se', l3) := set_new_root x0 x1 y0 y1 se d l2 in
              Ok (QN k x y v ne' nw se' sw', l3)
      | SW => let* (nw', l1) := adjust_quad x0 x1 y0 y1 nw DW l in
              let* (se', l2) := adjust_quad x0 x1 y0 y1 se DS l1 in
              let* (sw', l3) := set_new_root x0 x1 y0 y1 sw d l2 in
              Ok (QN k x y v ne nw' se' sw', l3)
      end
  end.

(** point_quad_tree.hpp:1380-1442 insert_node, for a node whose children have
    been reset (its only caller does that first) *)
Fixpoint insert_node (x y : Z) (v : V) (t : qt) : res qt :=
  match t with
  | QE => Ok (QN true x y v QE QE QE QE)
  | QN k cx cy cv ne nw se sw =>
      if (cx =? x) && (cy =? y) then Throw E_general
      else match get_quadrant cx cy x y with
           | NE => let* c := insert_node x y v ne in Ok (QN k cx cy cv c nw se sw)
           | NW => let* c := insert_node x y v nw in Ok (QN k cx cy cv ne c se sw)
           | SE => let* c := insert_node x y v se in Ok (QN k cx cy cv ne nw c sw)
           | SW => let* c := insert_node x y v sw in Ok (QN k cx cy cv ne nw se c)
           end
  end.

(** point_quad_tree.hpp:1444-1476 reinsert_tree(dest, root) *)
Fixpoint reinsert_tree (dest root : qt) : res qt :=
  match root with
  | QE => Ok dest
  | QN _ x y v ne nw se sw =>
      let* d1 := reinsert_tree dest ne in
      let* d2 := reinsert_tree d1 nw in
      let* d3 := reinsert_tree d2 se in
      let* d4 := reinsert_tree d3 sw in
      insert_node x y v d4
  end.

(** point_quad_tree.hpp:1478-1526 reinsert_tree(dest, quad, root) *)
Definition reinsert_quad (dest : qt) (q : quad) (root : qt) : res qt :=
  match root with
  | QE => Ok dest
  | _ => match child q dest with
         | QE => Ok (set_child q (set_link true root) dest)
         | c => let* c' := reinsert_tree c root in Ok (set_child q c' dest)
         end
  end.

(** point_quad_tree.hpp:870-872 the loop over insert_list *)
Fixpoint reinsert_list (dest : qt) (l : list qt) : res qt :=
  match l with
  | [] => Ok dest
  | t :: r => let* d := reinsert_tree dest t in reinsert_list d r
  end.

(** point_quad_tree.hpp:781-800 the directions in which the two quadrants next
    to the replacement's are adjusted *)
Definition adjacent (q : quad) : quad * dir * quad * dir :=
  match q with
  | NE => (NW, DS, SE, DW)
  | NW => (NE, DS, SW, DE)
  | SE => (NE, DW, SW, DN)
  | SW => (NW, DE, SE, DN)
  end.

(** point_quad_tree.hpp:807-835 the quadrants of the replacement whose trees
    are reinserted *)
Definition sides (q : quad) : quad * quad :=
  match q with NE | SW => (NW, SE) | NW | SE => (NE, SW) end.

(** point_quad_tree.hpp:837-866 the recycled node gets the coordinates, the data
    and one child of the replacement; both parent pointers are then wrong *)
Definition take_over (q : quad) (d r : qt) : qt :=
  match d, r with
  | QN _ _ _ _ ne nw se sw, QN _ rx ry rv _ _ _ _ =>
      set_child q (set_link false (child q r)) (QN false rx ry rv ne nw se sw)
  | _, _ => d
  end.

(** point_quad_tree.hpp:763-872 removal of the non-leaf node [d].  The
    replacement is the last node of the walk in its quadrant; that the quadrant
    computed from its coordinates (768) is the one it was found in is a property
    of the tree, and [Undef] stands for the case where it would not be *)
Definition remove_inner (d : qt) : res qt :=
  match d with
  | QE => Undef
  | QN k x y v ne nw se sw =>
      match find_replacement x y d with
      | None => Throw E_general
      | Some (q0, rx, ry) =>
          let q := get_quadrant x y rx ry in
          if negb (quad_eqb q q0) then Undef
          else
            let x0 := Z.min x rx in let x1 := Z.max x rx in
            let y0 := Z.min y ry in let y1 := Z.max y ry in
            let '(qa, da, qb, db) := adjacent q in
            let* (ta, l1) := adjust_quad x0 x1 y0 y1 (child qa d) da [] in
            let* (tb, l2) := adjust_quad x0 x1 y0 y1 (child qb d) db l1 in
            let* (tq, l3) := set_new_root x0 x1 y0 y1 (child q d) (opposite q) l2 in
            let d1 := set_child qa ta (set_child qb tb d) in
            let r := last_in (opposite q) tq in
            let '(s1, s2) := sides q in
            let* d2 := reinsert_quad d1 s1 (child s1 r) in
            let* d3 := reinsert_quad d2 s2 (child s2 r) in
            reinsert_list (take_over q d3 r) l3
      end
  end.

(** point_quad_tree.hpp:750-761 and 763: removal at the node found *)
Definition remove_here (root : bool) (d : qt) : res qt :=
  if leaf d then
    (if root then Ok QE
     else match d with
          | QN true _ _ _ _ _ _ _ => Ok QE
          | _ => Throw E_general
          end)
  else remove_inner d.

(** point_quad_tree.hpp:734-873 remove; the recursion is the walk of find_node
    (738), the node found is changed in place *)
Fixpoint remove_at (root : bool) (x y : Z) (t : qt) : res qt :=
  match t with
  | QE => Ok QE
  | QN k cx cy cv ne nw se sw =>
      if (cx =? x) && (cy =? y) then remove_here root t
      else match get_quadrant cx cy x y with
           | NE => let* c := remove_at false x y ne in Ok (QN k cx cy cv c nw se sw)
           | NW => let* c := remove_at false x y nw in Ok (QN k cx cy cv ne c se sw)
           | SE => let* c := remove_at false x y se in Ok (QN k cx cy cv ne nw c sw)
           | SW => let* c := remove_at false x y sw in Ok (QN k cx cy cv ne nw se c)
           end
  end.

(** point_quad_tree.hpp:734-873 remove *)
Definition remove (x y : Z) (t : qt) : res qt := remove_at true x y t.

End Pqt.

Arguments qt V : clear implicits.
