(** multi_type_vector: set of a range over several blocks, first block of another type. *)
From Coq Require Import List ZArith Lia Bool.
From Verif Require Import Base MtvModel MtvProofs MtvTac.
Import ListNotations.

Section P.
Context {V : Type}.
Variable cat : V -> nat.
Variable managed : nat -> bool.
Notation eblk := (@eblk V).
Notation blk := (@blk V).
Notation st := (@st V).

Lemma set_cells_multi_ne_spec (q : list blk) b1 m b2 t c n g a r f ra rb v0 vs :
  let s := ST (q ++ b1 :: m ++ b2 :: t) c n g a r f in
  good cat s -> tot q <= ra -> ra < tot q + bs b1 ->
  tot q + bs b1 + tot m <= rb -> rb < tot q + bs b1 + tot m + bs b2 ->
  rb = ra + length vs -> all_cat cat (cat v0) vs = true ->
  bcat b1 <> Some (cat v0) ->
  wp (set_cells_multi_non_equal cat managed ra rb (length q) (S (length m + length q)) (cat v0) (v0 :: vs) s)
     (fun x => step cat managed s (fst x)
                 (splice ra (S (length vs)) (map Some (v0 :: vs)) (flat s))
                 (own managed (cat v0) (v0 :: vs)) []
               /\ at_pos (fst x) (snd x) ra).
Proof.
  intros s Hg Ha Ha' Hb Hb' Hr Hvs Hc.
  unfold s. rewrite (flat_multi cat) by (auto; lia). unfold s in *. clear s.
  destruct b1 as [pb zb [[ib cb lb]|]]; destruct b2 as [pb2 zb2 [[ib2 cb2 lb2]|]]; cbn [bs bp] in *;
  rewrite ?bcat_some, ?bcat_none in Hc;
  open_good Hg; step_all; fin.
Qed.
End P.
