(** multi_type_vector: exchange_elements on one block. *)
From Coq Require Import List ZArith Lia Bool.
From Verif Require Import Base MtvModel MtvXfer MtvProofs MtvTac MtvWrap MtvXferMerge MtvXferHole MtvXferSteps.
Import ListNotations.

Section P.
Set Default Proof Using "Type".
Context {V : Type}.
Variable cat : V -> nat.
Variable managed : nat -> bool.
Notation eblk := (@eblk V).
Notation blk := (@blk V).
Notation st := (@st V).

(** What exchange leaves in its container; freed objects of the next block are still stored. *)
Definition between (c : nat) (s : st) (a len : nat) : Prop :=
  managed c = true /\ 0 < a /\
  exists v w, nth_error (flat s) (a - 1) = Some (Some v) /\ nth_error (flat s) (a + len) = Some (Some w) /\
              cat v = c /\ cat w = c.
Definition ystep (X : Prop) (s s' : st) (a len : nat) (x : list (option V)) (P : Prop) : Prop :=
  good cat s' /\ flat s' = splice a len x (flat s) /\ (canon s -> P -> canon s') /\ tag s' = tag s /\
  ((forall p, cnt p (freed s') = cnt p (freed s)) \/ X) /\ events s s'.

Lemma exchange_spec q i z c' l t c n g ac rl fr a len (e : eblk) so :
  let s := ST (q ++ BK (tot q) z (Some (EB i c' l)) :: t) c n g ac rl fr in
  good cat s -> tot q <= a -> 0 < len -> a + len <= tot q + z -> ecat e <> c' ->
  okd cat (length (ev e)) (Some e) -> so + len <= length (ev e) ->
  wp (exchange managed e so (length q) (a - tot q) len s)
     (fun x => ystep (between (ecat e) s a len) s (fst x) a len (map Some (firstn len (skipn so (ev e)))) True /\
        ecat (snd x) = c' /\ ev (snd x) = firstn len (skipn (a - tot q) l)).
Proof.
  intros s Hs H1 Hl H2 Hne He Hso. unfold s in *. clear s. destruct e as [ie ce le]. cbn [ecat ev okd] in *.
  destruct He as [_ He].
  remember (a - tot q) as off eqn:Eo. assert (a = tot q + off) as -> by lia. clear Eo.
  open_good Hs. unfold exchange, put_copy.
  cbn [ecat].
  step_all.
  all: cbn [fst snd ecat ev].
  all: rewrite <- ?app_assoc, ?tot_app; cbn [app tot bs].
  all: repeat match goal with |- _ /\ _ => split end; try (solve [reflexivity | lnorm; leq]).
  all: unfold ystep; repeat match goal with |- _ /\ _ => split end.
  all: try (solve [fin_step]).
  all: try (solve [left; intros ?; reflexivity]).
  all: match goal with |- canon _ -> True -> _ => let H := fresh in intros H _; revert H; try (solve [fin_step]) | _ => idtac end.
  destruct (managed cn) eqn:Em; [right|left; intros p; cbn [freed]; rewrite own_unmanaged, app_nil_r by exact Em; reflexivity].
  split; [exact Em|]. split; [lia|].
  destruct ln as [|w ln]; [cbn [length] in *; lia|].
  destruct lp as [|v lp _] using rev_ind; [cbn [length] in *; lia|].
  exists v, w. rewrite all_cat_app in H16. apply andb_true_iff in H16 as [_ H16].
  rewrite all_cat_cons in H16, H12. apply andb_true_iff in H16 as [H16 _]. apply andb_true_iff in H12 as [H12 _].
  apply Nat.eqb_eq in H16, H12.
  unfold flat. cbn [bl]. rewrite flatl_app, !flatl_cons. unfold flatb. cbn [bd ev].
  rewrite app_length. cbn [length]. split; [|split; [|split; congruence]].
  - rewrite nth_error_app2 by lia. rewrite map_app, <- app_assoc.
    rewrite nth_error_app2 by (rewrite map_length; lia). rewrite map_length.
    replace (tot q + (length lp + 1 + 0) + 0 - 1 - length (flatl q) - length lp) with 0 by lia. reflexivity.
  - rewrite nth_error_app2 by lia. rewrite nth_error_app2 by (rewrite map_length, app_length; cbn [length]; lia).
    rewrite nth_error_app2 by (rewrite !map_length, app_length; cbn [length]; lia).
    rewrite !map_length, app_length. cbn [length].
    match goal with |- nth_error _ ?k = _ => replace k with 0 by lia end. reflexivity.
Qed.

End P.
