(** multi_type_vector: set of a range. *)
From Coq Require Import List ZArith Lia Bool.
From Verif Require Import Base MtvModel MtvProofs MtvTac.
Import ListNotations.

Section P.
Context {V : Type}.
Variable cat : V -> nat.
Variable managed : nat -> bool.
Notation eblk := (@eblk V).
Notation blk := (@blk V).
Notation st := (@st V).

(** The event account fails when the front part of a block with elements of another
    type is overwritten (finding M8). *)
Lemma set_cells_single_spec (q : list blk) b t c n g a r f ra v0 vs :
  let s := ST (q ++ b :: t) c n g a r f in
  good cat s -> tot q <= ra -> ra + S (length vs) <= tot q + bs b ->
  all_cat cat (cat v0) vs = true ->
  wp (set_cells_single cat managed ra (ra + S (length vs) - 1) (length q) (cat v0) (v0 :: vs) s)
     (fun x => step0 cat managed s (fst x) (splice ra (S (length vs)) (map Some (v0 :: vs)) (flat s))
                 (own managed (cat v0) (v0 :: vs)) []
               /\ at_pos (fst x) (snd x) ra
               /\ ((forall e, bd b = Some e -> ecat e <> cat v0 -> ra = tot q ->
                     ra + S (length vs) = tot q + bs b) ->
                   events s (fst x))).
Proof.
  intros s Hg Ha Hb Hvs.
  unfold s in *. clear s.
  destruct b as [pb zb [[ib cb lb]|]]; cbn [bs bp] in *;
  open_good Hg; step_all; fin;
  (intros Hm; first [solve [fin_step] | exfalso]);
  (specialize (Hm _ eq_refl ltac:(cbn [ecat]; congruence) ltac:(rewrite ?tot_app; cbn [tot bs]; lia));
   rewrite ?tot_app in *; cbn [tot bs] in *; lia).
Qed.
End P.
