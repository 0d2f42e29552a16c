(** multi_type_vector: set_empty and release. *)
From Coq Require Import List ZArith Lia Bool.
From Verif Require Import Base MtvModel MtvProofs MtvTac.
Import ListNotations.

Section P.
Context {V : Type}.
Variable cat : V -> nat.
Variable managed : nat -> bool.
Notation eblk := (@eblk V).
Notation blk := (@blk V).
Notation st := (@st V).

Lemma set_empty_single_spec (q : list blk) b t c n g a r f ra rb ow :
  let s := ST (q ++ b :: t) c n g a r f in
  good cat s -> tot q <= ra -> ra <= rb -> rb < tot q + bs b ->
  wp (set_empty_single managed ra rb (length q) ow s)
     (fun x => step cat managed s (fst x)
                 (splice ra (S (rb - ra)) (repeat None (S (rb - ra))) (flat s))
                 [] (taken managed ow b (ra - bp b) (S (rb - ra)))
               /\ at_pos (fst x) (snd x) ra).
Proof.
  intros s Hg Ha Hab Hb.
  unfold s in *. clear s.
  destruct b as [pb zb [[ib cb lb]|]]; cbn [bs bp] in *;
  open_good Hg; destruct ow; cbn [taken bd ecat ev]; step_all; fin.
Qed.
End P.
