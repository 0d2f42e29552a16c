(** What a user of packed_trie_map has to know: which contents can be packed,
    which serializers are correct, and the ways to come by a packed map. *)
From Coq Require Import List ZArith Lia Bool Arith Sorted.
From Verif Require Import Base TrieModel TrieSpec PackModel.
Import ListNotations.
Open Scope Z_scope.

(** pack_value_type has 1 to 8 bytes and is not narrower than a key unit *)
Definition pt_ok (T : ptraits) : Prop :=
  (1 <= pbytes T <= 8)%nat /\ 1 <= ubits T <= 8 * Z.of_nat (pbytes T).
(** the key units that key_unit_type can represent *)
Definition in_units (T : ptraits) (u : Z) : Prop :=
  if usigned T then - 2 ^ (ubits T - 1) <= u < 2 ^ (ubits T - 1) else 0 <= u < 2 ^ ubits T.

Section SPEC.
Context {V : Type}.

(** the total length of the keys *)
Definition key_units (l : list (list Z * V)) : nat := fold_right (fun e a => (length (fst e) + a)%nat) O l.
(** the entries can be packed: their units can be represented, and four cells
    for every unit can be addressed *)
Definition fits (T : ptraits) (l : list (list Z * V)) : Prop :=
  Forall (fun e => Forall (in_units T) (fst e)) l /\ Z.of_nat (4 * (1 + key_units l)) <= 2 ^ (8 * Z.of_nat (pbytes T)).
(** no key has a zero unit *)
Definition zero_free (l : list (list Z * V)) : Prop := Forall (fun e => Forall (fun u => u <> 0) (fst e)) l.

(** the serializer writes bytes, and reads back what it wrote for [v] *)
Definition handles (F : serializer V) (v : V) : Prop :=
  Forall (fun x => 0 <= x < 256) (swrite F v) /\
  (forall rest, sread F (Z.of_nat (length (swrite F v))) (swrite F v ++ rest) = Ok (v, rest)) /\
  (if svar F then Z.of_nat (length (swrite F v)) < 2 ^ 32
   else Z.of_nat (length (swrite F v)) = ssize F).
(** value_size fits in the four bytes it is written in *)
Definition sizes_ok (F : serializer V) : Prop := svar F = false -> 0 <= ssize F < 2 ^ 32.
(** [m] can be saved with [F]: it handles every stored value, and there are
    fewer than 2^32 of them *)
Definition saveable (F : serializer V) (m : content) : Prop :=
  sizes_ok F /\ (forall k v, m k = Some v -> handles F v) /\
  forall l, listing m l -> Z.of_nat (length l) < 2 ^ 32.

(** [made T pm m]: [pm] is a packed map that was constructed with content [m],
    or obtained by copying, moving or saving and loading *)
Inductive made (T : ptraits) : pmap V -> content -> Prop :=
| M_trie os m l pm : after_calls os m -> listing m l -> fits T l -> pack T (trun os) = Ok pm -> made T pm m
| M_table l m pm : listing m l -> zero_free l -> fits T l -> pack_table T l = Ok pm -> made T pm m
| M_copy pm m pm' : made T pm m -> pcopy T pm = Ok pm' -> made T pm' m
| M_move pm m : made T pm m -> made T (fst (pmove pm)) m
| M_load pm m F bytes junk pm' : made T pm m -> saveable F m -> save_state T F pm = Ok bytes ->
    load_state T F junk bytes = Ok pm' -> made T pm' m.
End SPEC.
