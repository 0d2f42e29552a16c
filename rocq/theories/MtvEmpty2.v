(** multi_type_vector: set_empty over several blocks. *)
From Coq Require Import List ZArith Lia Bool.
From Verif Require Import Base MtvModel MtvProofs MtvTac.
Import ListNotations.

Section P.
Context {V : Type}.
Variable cat : V -> nat.
Variable managed : nat -> bool.
Notation eblk := (@eblk V).
Notation blk := (@blk V).
Notation st := (@st V).

Lemma set_empty_multi_spec (q : list blk) b1 m b2 t c n g a r f ra rb (ow : bool) :
  let s := ST (q ++ b1 :: m ++ b2 :: t) c n g a r f in
  good cat s -> tot q <= ra -> ra < tot q + bs b1 ->
  tot q + bs b1 + tot m <= rb -> rb < tot q + bs b1 + tot m + bs b2 ->
  wp (set_empty_multi managed ra rb (length q) (S (length m + length q)) ow s)
     (fun x => step cat managed s (fst x)
                 (splice ra (S (rb - ra)) (repeat None (S (rb - ra))) (flat s))
                 [] (if ow then [] else
                     taken managed ow b1 (ra - bp b1) (bp b1 + bs b1 - ra) ++ mo managed m
                     ++ taken managed ow b2 0 (S (rb - bp b2)))
               /\ at_pos (fst x) (snd x) ra).
Proof.
  intros s Hg Ha Ha' Hb Hb'.
  unfold s. rewrite (flat_multi cat) by (auto; lia). unfold s in *. clear s.
  destruct b1 as [pb zb [[ib cb lb]|]]; destruct b2 as [pb2 zb2 [[ib2 cb2 lb2]|]]; cbn [bs bp] in *;
  open_good Hg; destruct ow; cbn [taken bd ecat ev].
  all: step_all; fin.
Qed.
End P.
