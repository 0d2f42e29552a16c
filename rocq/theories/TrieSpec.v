(** Specification of trie_map: a finite map from keys to values, without any
    reference to nodes, stacks or iterators. *)
From Coq Require Import List ZArith Lia Bool Arith Sorted.
From Verif Require Import Base TrieModel.
Import ListNotations.
Open Scope Z_scope.

(** strict lexicographic order of keys *)
Fixpoint klt (a b : list Z) : Prop :=
  match a, b with
  | _, [] => False
  | [], _ :: _ => True
  | x :: a', y :: b' => x < y \/ x = y /\ klt a' b'
  end.

Section SPEC.
Context {V : Type}.

(** the abstract content: which value each key has *)
Definition content := list Z -> option V.
Definition c_empty : content := fun _ => None.
Definition c_set (m : content) (k : list Z) (v : V) : content :=
  fun k' => if list_eq_dec Z.eq_dec k k' then Some v else m k'.
Definition c_del (m : content) (k : list Z) : content :=
  fun k' => if list_eq_dec Z.eq_dec k k' then None else m k'.

(** [l] lists the content: every entry once, keys strictly increasing *)
Definition listing (m : content) (l : list (list Z * V)) : Prop :=
  StronglySorted klt (map fst l) /\ forall k v, In (k, v) l <-> m k = Some v.

(** the entries whose key starts with [p] *)
Definition c_prefix (p : list Z) (m : content) : content :=
  fun k => if list_eq_dec Z.eq_dec p (firstn (length p) k) then m k else None.

(** [k] overreaches the stored key [q]: it goes on from [q] with two or more
    units, of which exactly the first leads towards stored keys. *)
Definition overreaches (m : content) (k q : list Z) : Prop :=
  exists u x r, k = q ++ u :: x :: r /\ m q <> None /\
    (exists s, m (q ++ u :: s) <> None) /\ (forall s, m (q ++ u :: x :: s) = None).

(** content after a history of calls on a new trie.  Erasing a key that
    overreaches [q] removes [q] (see C20). *)
Inductive after_calls : list (top V) -> content -> Prop :=
| AC_nil m : (forall k, m k = None) -> after_calls [] m
| AC_insert os m k v m' : after_calls os m -> (forall k', m' k' = c_set m k v k') ->
    after_calls (os ++ [Insert k v]) m'
| AC_clear os m m' : after_calls os m -> (forall k, m' k = None) -> after_calls (os ++ [Clear]) m'
| AC_erase os m k m' : after_calls os m -> (forall q, ~ overreaches m k q) ->
    (forall k', m' k' = c_del m k k') -> after_calls (os ++ [Erase k]) m'
| AC_erase_over os m k q m' : after_calls os m -> overreaches m k q ->
    (forall k', m' k' = c_del m q k') -> after_calls (os ++ [Erase k]) m'.
End SPEC.
