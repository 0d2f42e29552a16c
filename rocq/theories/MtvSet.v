(** multi_type_vector: set of one element. *)
From Coq Require Import List ZArith Lia Bool.
From Verif Require Import Base MtvModel MtvProofs MtvTac.
Import ListNotations.

Section P.
Context {V : Type}.
Variable cat : V -> nat.
Variable managed : nat -> bool.
Notation eblk := (@eblk V).
Notation blk := (@blk V).
Notation st := (@st V).

Lemma set_impl_spec (q : list blk) b t c n g a r f pos v :
  let s := ST (q ++ b :: t) c n g a r f in
  good cat s -> tot q <= pos < tot q + bs b ->
  wp (set_impl cat managed pos (length q) v s)
     (fun x => step cat managed s (fst x) (splice pos 1 [Some v] (flat s)) (own managed (cat v) [v]) []
               /\ at_pos (fst x) (snd x) pos).
Proof.
  intros s Hg Hpos.
  unfold s in *. clear s.
  destruct b as [pb zb [[ib cb lb]|]]; cbn [bs bp] in *;
  open_good Hg; step_all; fin.
Qed.

End P.
