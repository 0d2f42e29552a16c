(** multi_type_vector: push_back and resize. *)
From Coq Require Import List ZArith Lia Bool.
From Verif Require Import Base MtvModel MtvProofs MtvTac.
Import ListNotations.

Section P.
Context {V : Type}.
Variable cat : V -> nat.
Variable managed : nat -> bool.
Notation eblk := (@eblk V).
Notation blk := (@blk V).
Notation st := (@st V).

Lemma push_back_spec (s : st) v :
  good cat s ->
  wp (push_back cat managed v s)
     (fun x => step cat managed s (fst x) (flat s ++ [Some v]) (own managed (cat v) [v]) []
               /\ at_pos (fst x) (snd x) (cs s)).
Proof.
  intros Hg. destruct s as [l c n g a r f]. unfold push_back, nblk. cbn [bl cs] in *.
  destruct l as [|[pp zp [[ip cp lp]|]] q _] using rev_ind.
  - cbn [length pred nth_error]. unfold push_blk, with_bl. cbn [bl cs nid tag acq rel freed app].
    open_good Hg; step_all; fin.
  - rewrite last_length. cbn [pred Nat.sub]. rewrite Nat.sub_0_r, nth_error_app_mid.
    unfold push_blk, with_bl. cbn [bl cs nid tag acq rel freed app].
    open_good Hg; step_all; fin.
  - rewrite last_length. cbn [pred Nat.sub]. rewrite Nat.sub_0_r, nth_error_app_mid.
    unfold push_blk, with_bl. cbn [bl cs nid tag acq rel freed app].
    rewrite <- ?app_assoc; cbn [app].
    open_good Hg; step_all; fin.
Qed.

Lemma append_empty_spec (s : st) len :
  good cat s -> 0 < len ->
  wp (append_empty len s)
     (fun x => step cat managed s (fst x) (flat s ++ repeat None len) [] []
               /\ at_pos (fst x) (if snd x then nblk s else pred (nblk s)) (cs s)).
Proof.
  intros Hg Hlen. destruct s as [l c n g a r f]. unfold append_empty, nblk. cbn [bl cs] in *.
  destruct l as [|[pp zp [[ip cp lp]|]] q _] using rev_ind.
  - cbn [length pred nth_error]. unfold push_blk, with_bl. cbn [bl cs nid tag acq rel freed app].
    open_good Hg; step_all; fin.
  - rewrite last_length. cbn [pred Nat.sub].
    open_good Hg; step_all; fin.
  - rewrite last_length. cbn [pred Nat.sub]. 
    open_good Hg; step_all; fin.
Qed.
End P.
