(** multi_type_vector: insert_empty and insert. *)
From Coq Require Import List ZArith Lia Bool.
From Verif Require Import Base MtvModel MtvProofs MtvTac.
Import ListNotations.

Section P.
Context {V : Type}.
Variable cat : V -> nat.
Variable managed : nat -> bool.
Notation eblk := (@eblk V).
Notation blk := (@blk V).
Notation st := (@st V).

Lemma insert_empty_impl_spec (q : list blk) b t c n g a r f pos len :
  let s := ST (q ++ b :: t) c n g a r f in
  good cat s -> tot q <= pos < tot q + bs b -> 0 < len ->
  wp (insert_empty_impl pos (length q) len s)
     (fun x => step cat managed s (fst x) (splice pos 0 (repeat None len) (flat s)) [] []
               /\ at_pos (fst x) (snd x) pos).
Proof.
  intros s Hg Hpos Hlen.
  unfold s in *. clear s.
  destruct b as [pb zb [[ib cb lb]|]]; cbn [bs bp] in *;
  open_good Hg; step_all; fin.
Qed.

(** The event account fails when a new block has to be put before a block with
    elements of another type (finding M1). *)
Lemma insert_cells_impl_spec (q : list blk) b t c n g a r f pos v0 vs :
  let s := ST (q ++ b :: t) c n g a r f in
  good cat s -> tot q <= pos < tot q + bs b -> all_cat cat (cat v0) vs = true ->
  wp (insert_cells_impl cat pos (length q) (v0 :: vs) s)
     (fun x => step0 cat managed s (fst x) (splice pos 0 (map Some (v0 :: vs)) (flat s))
                 (own managed (cat v0) (v0 :: vs)) []
               /\ at_pos (fst x) (snd x) pos
               /\ ((forall e, bd b = Some e -> ecat e <> cat v0 -> pos = tot q ->
                     exists q' b', q = q' ++ [b'] /\ bcat b' = Some (cat v0)) ->
                   events s (fst x))).
Proof.
  intros s Hg Hpos Hvs.
  unfold s in *. clear s.
  destruct b as [pb zb [[ib cb lb]|]]; cbn [bs bp] in *;
  open_good Hg; step_all; fin;
  (intros Hm; first [solve [fin_step] | exfalso]);
  (destruct (Hm _ eq_refl ltac:(cbn [ecat]; congruence) ltac:(rewrite ?tot_app; cbn [tot bs]; lia))
     as (q' & b' & Eq & Eb));
  try (destruct q'; discriminate);
  apply app_inj_tail in Eq as [<- <-]; cbn in Eb; congruence.
Qed.

End P.
