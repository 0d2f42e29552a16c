(** multi_type_vector: resize. *)
From Coq Require Import List ZArith Lia Bool.
From Verif Require Import Base MtvModel MtvProofs MtvTac.
Import ListNotations.

Section P.
Context {V : Type}.
Variable cat : V -> nat.
Variable managed : nat -> bool.
Notation eblk := (@eblk V).
Notation blk := (@blk V).
Notation st := (@st V).

Lemma resize_down_spec (q : list blk) b t c n g a r f nn :
  let s := ST (q ++ b :: t) c n g a r f in
  good cat s -> tot q < nn -> nn <= tot q + bs b ->
  shrink_ok managed b nn ->
  wp (resize_down managed nn (length q) s)
     (fun x => step cat managed s x (firstn nn (flat s)) [] []).
Proof.
  intros s Hg Ha Ha' Hok.
  unfold s in *. clear s.
  destruct b as [pb zb [[ib cb lb]|]]; cbn [bs bp] in *; unfold shrink_ok in Hok; cbn [bd bp bs ecat] in Hok;
  [destruct Hok as [Hm|[Hp|Hp]]|]; open_good Hg; step_all; fin.
Qed.
End P.
