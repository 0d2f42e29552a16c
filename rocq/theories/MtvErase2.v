(** multi_type_vector: erase over several blocks. *)
From Coq Require Import List ZArith Lia Bool.
From Verif Require Import Base MtvModel MtvProofs MtvTac.
Import ListNotations.

Section P.
Context {V : Type}.
Variable cat : V -> nat.
Variable managed : nat -> bool.
Notation eblk := (@eblk V).
Notation blk := (@blk V).
Notation st := (@st V).

Lemma erase_multi_spec (q : list blk) b1 m b2 t c n g a r f ra rb :
  let s := ST (q ++ b1 :: m ++ b2 :: t) c n g a r f in
  good cat s -> tot q <= ra -> ra < tot q + bs b1 ->
  tot q + bs b1 + tot m <= rb -> rb < tot q + bs b1 + tot m + bs b2 ->
  wp (erase_multi managed ra rb (length q) (S (length m + length q)) s)
     (fun x => step cat managed s x (splice ra (S (rb - ra)) [] (flat s)) [] []).
Proof.
  intros s Hg Ha Ha' Hb Hb'.
  unfold s. rewrite (flat_multi cat) by (auto; lia). unfold s in *. clear s.
  destruct b1 as [pb zb [[ib cb lb]|]]; destruct b2 as [pb2 zb2 [[ib2 cb2 lb2]|]]; cbn [bs bp] in *;
  open_good Hg; step_all; fin.
Qed.
End P.
