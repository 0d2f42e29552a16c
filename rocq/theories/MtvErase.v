(** multi_type_vector: erase. *)
From Coq Require Import List ZArith Lia Bool.
From Verif Require Import Base MtvModel MtvProofs MtvTac.
Import ListNotations.

Section P.
Context {V : Type}.
Variable cat : V -> nat.
Variable managed : nat -> bool.
Notation eblk := (@eblk V).
Notation blk := (@blk V).
Notation st := (@st V).

Lemma erase_single_spec (q : list blk) b t c n g a r f ra rb :
  let s := ST (q ++ b :: t) c n g a r f in
  good cat s -> tot q <= ra -> ra <= rb -> rb < tot q + bs b ->
  wp (erase_single managed ra rb (length q) s)
     (fun x => step cat managed s x (splice ra (S (rb - ra)) [] (flat s)) [] []).
Proof.
  intros s Hg Ha Hab Hb.
  unfold s in *. clear s.
  destruct b as [pb zb [[ib cb lb]|]]; cbn [bs bp] in *;
  open_good Hg; step_all; fin.
Qed.
End P.
