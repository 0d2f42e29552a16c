(** Model of the position objects of multi_type_vector as pairs of an iterator and an
    offset.  MtvModel.v and MtvModel2.v keep the block index only; here the node that the
    iterator holds is kept too, which is what logical_position and next_position read.

    Source: /repo/include/mdds/multi_type_vector/soa/main_def.inl, aos/main_def.inl.
    Simplification: const and non-const position objects are the same. *)
From Coq Require Import List ZArith Lia Bool.
From Verif Require Import Base MtvModel MtvIter.
Import ListNotations.

Section Pos.
Context {V : Type}.
Notation st := (@st V).
Notation iter := (@iter V).

(** position(pos) and position(pos_hint, pos), soa/main_def.inl:683-775 with make_end,
    soa/main_def.inl:4072-4078; aos/main_def.inl:1675-1755. *)
Definition p_position (hint : option (option nat)) (pos : nat) (s : st) : res (iter * nat) :=
  if pos =? cs s then let* e := it_end true s in Ok (e, 0)
  else
    let* bi := locate hint pos s in
    let* start := pos_at bi s in
    let* it := it_at s bi in
    Ok (it, pos - start).

(** next_position, soa/main_def.inl:302-318, 328-344, aos/main_def.inl:71-86. *)
Definition p_next (s : st) (p : iter * nat) : res (iter * nat) :=
  if S (snd p) <? nsize (cur (fst p)) then Ok (fst p, S (snd p))
  else let* it := inc true s (fst p) in Ok (it, 0).

(** logical_position, soa/main_def.inl:353-358, aos/main_def.inl:121-126: operator-> of an
    iterator gives its node without a test for the end. *)
Definition p_logical (p : iter * nat) : nat := npos (cur (fst p)) + snd p.

End Pos.
