(** Model of the search results of point_quad_tree, their iterators, and node_access
    (include/mdds/point_quad_tree.hpp:133-372).

    The results hold pointers to nodes; the model holds what the nodes store, since the
    tree does not change while results of it are in use (the code gives no other
    guarantee). *)
From Coq Require Import List ZArith Lia Bool.
From Verif Require Import Base PqtModel.
Import ListNotations.
Open Scope Z_scope.

Section Results.
Context {V : Type}.
(** The value-initialised Value, part of m_cur_value, point_quad_tree.hpp:336. *)
Variable dflt : V.
Notation item := (Z * Z * V)%type.

(** search_results, point_quad_tree.hpp:200-372: the shared array (its address and its
    content), [None] for the null pointer of an empty result. *)
Definition results : Type := option (nat * list item).

(** search_results::push_back, point_quad_tree.hpp:361-366; [a] is the address that [new]
    would give. *)
Definition push (a : nat) (r : results) (p : item) : results :=
  match r with
  | None => Some (a, [p])
  | Some (b, l) => Some (b, l ++ [p])
  end.

(** search_region returning results, point_quad_tree.hpp:713-723, with
    search_result_inserter (537-550). *)
Definition search (a : nat) (x1 y1 x2 y2 : Z) (t : qt V) : results :=
  fold_left (push a) (search_region x1 y1 x2 y2 t) None.

(** const_iterator, point_quad_tree.hpp:333-338: m_cur_pos is [None] until it is set. *)
Record sit := SIT { sres : results; spos : option nat; sval : item; sat_end : bool }.

(** const_iterator(ptr), point_quad_tree.hpp:222-223. *)
Definition fresh_it (r : results) : sit := SIT r None (0, 0, dflt) false.

(** update_current_value, point_quad_tree.hpp:321-326. *)
Definition update_value (it : sit) : res sit :=
  match sres it, spos it with
  | Some (_, l), Some i => let* v := deref (nth_error l i) in Ok (SIT (sres it) (spos it) v (sat_end it))
  | _, _ => Undef
  end.

(** move_to_front, point_quad_tree.hpp:296-308, and begin, 346-351. *)
Definition res_begin (r : results) : res sit :=
  let it := fresh_it r in
  match r with
  | None => Ok (SIT r (spos it) (sval it) true)
  | Some _ => update_value (SIT r (Some 0%nat) (sval it) false)
  end.

(** move_to_end, point_quad_tree.hpp:310-319, and end, 353-358.  The current value is not
    updated. *)
Definition res_end (r : results) : res sit :=
  let it := fresh_it r in
  match r with
  | None => Ok (SIT r (spos it) (sval it) true)
  | Some (_, l) =>
      match length l with
      | O => Undef
      | S n => Ok (SIT r (Some n) (sval it) true)
      end
  end.

(** operator++, point_quad_tree.hpp:265-281. *)
Definition sinc (it : sit) : res sit :=
  match sres it, spos it with
  | Some (_, l), Some i =>
      if Nat.eqb (S i) (length l) then Ok (SIT (sres it) (spos it) (sval it) true)
      else update_value (SIT (sres it) (Some (S i)) (sval it) (sat_end it))
  | _, _ => Undef
  end.

(** operator--, point_quad_tree.hpp:283-293. *)
Definition sdec (it : sit) : res sit :=
  if sat_end it then Ok (SIT (sres it) (spos it) (sval it) false)
  else match spos it with
       | Some (S i) => update_value (SIT (sres it) (Some i) (sval it) false)
       | _ => Undef
       end.

(** operator==, point_quad_tree.hpp:239-253; an uninitialised m_cur_pos equals nothing. *)
Definition seqb (a b : sit) : bool :=
  match sres a with
  | Some (x, _) =>
      match sres b with Some (y, _) => Nat.eqb x y | None => false end &&
      match spos a, spos b with Some i, Some j => Nat.eqb i j | _, _ => false end &&
      Bool.eqb (sat_end a) (sat_end b)
  | None =>
      match sres b with Some _ => false | None => Bool.eqb (sat_end a) (sat_end b) end
  end.

(** A caller collecting [*it] from [it] up to [last] (helper, no code of its own),
    point_quad_tree.hpp:239-281. *)
Fixpoint swalk (fuel : nat) (it last : sit) : res (list item) :=
  if seqb it last then Ok []
  else match fuel with
       | O => Undef
       | S f => let* it' := sinc it in let* l := swalk f it' last in Ok (sval it :: l)
       end.

(** A caller going back with [--] and collecting what it shows (helper, no code of its own),
    point_quad_tree.hpp:239-293. *)
Fixpoint swalk_back (fuel : nat) (it first : sit) : res (list item) :=
  if seqb it first then Ok []
  else match fuel with
       | O => Undef
       | S f => let* it' := sdec it in let* l := swalk_back f it' first in Ok (sval it' :: l)
       end.

(** ** node_access *)

(** The node at the end of a path of child pointers, quad_node.hpp:101-105 (helper). *)
Fixpoint node_at (p : list quad) (t : qt V) : qt V :=
  match p with
  | [] => t
  | q :: r => node_at r (child q t)
  end.

(** node_access, point_quad_tree.hpp:133-188: a pointer to a node, shown as its path from
    the root; [None] for the null pointer (also the default constructor, 177-178). *)
Definition access : Type := option (list quad).

(** The pointer to the node at [p], null if there is none, point_quad_tree.hpp:138-153
    (helper). *)
Definition mk_access (p : list quad) (t : qt V) : access :=
  match node_at p t with QE => None | QN _ _ _ _ _ _ _ _ => Some p end.

(** get_node_access, point_quad_tree.hpp:903-907. *)
Definition get_node_access (t : qt V) : access := mk_access [] t.

(** northeast, northwest, southeast, southwest, point_quad_tree.hpp:138-153. *)
Definition go (q : quad) (t : qt V) (a : access) : res access :=
  let* p := deref a in Ok (mk_access (p ++ [q]) t).

(** x, y and data, point_quad_tree.hpp:155-166. *)
Definition acc_item (t : qt V) (a : access) : res item :=
  let* p := deref a in
  match node_at p t with
  | QE => Undef
  | QN _ x y v _ _ _ _ => Ok (x, y, v)
  end.

(** operator bool, point_quad_tree.hpp:168-171. *)
Definition acc_bool (a : access) : bool := match a with Some _ => true | None => false end.

(** Equality of quadrants (helper), quad_node.hpp:28-35. *)
Definition quad_eqb (a b : quad) : bool :=
  match a, b with NE, NE | NW, NW | SE, SE | SW, SW => true | _, _ => false end.

(** Equality of paths, that is of nodes (helper), point_quad_tree.hpp:172-175. *)
Fixpoint path_eqb (a b : list quad) : bool :=
  match a, b with
  | [], [] => true
  | x :: r, y :: s => quad_eqb x y && path_eqb r s
  | _, _ => false
  end.

(** operator==, point_quad_tree.hpp:172-175. *)
Definition acc_eqb (a b : access) : bool :=
  match a, b with
  | None, None => true
  | Some p, Some q => path_eqb p q
  | _, _ => false
  end.

(** A caller visiting every node (helper, no code of its own; as in verify_node_iterator,
    point_quad_tree.hpp:1063-1089). *)
Fixpoint visit (fuel : nat) (t : qt V) (a : access) : res (list item) :=
  if acc_bool a then
    match fuel with
    | O => Undef
    | S f =>
        let* i := acc_item t a in
        let* ne := go NE t a in let* l1 := visit f t ne in
        let* nw := go NW t a in let* l2 := visit f t nw in
        let* se := go SE t a in let* l3 := visit f t se in
        let* sw := go SW t a in let* l4 := visit f t sw in
        Ok (i :: l1 ++ l2 ++ l3 ++ l4)
    end
  else Ok [].

End Results.
