(** multi_type_vector: merging of neighbouring blocks, as used by the calls on two
    containers. *)
From Coq Require Import List ZArith Lia Bool.
From Verif Require Import Base MtvModel MtvProofs MtvTac.
Import ListNotations.

Section P.
Set Default Proof Using "Type".
Context {V : Type}.
Variable cat : V -> nat.
Variable managed : nat -> bool.
Notation eblk := (@eblk V).
Notation blk := (@blk V).
Notation st := (@st V).

(** The same content in blocks that may be joined. *)
Definition merged (s s' : st) : Prop :=
  wfl cat 0 (bl s') /\ cs s' = tot (bl s') /\ cs s' = cs s /\ tag s' = tag s /\ flat s' = flat s /\
  (forall p, cnt p (freed s') + cnt p (mo managed (bl s')) = cnt p (freed s) + cnt p (mo managed (bl s))) /\
  events s s'.

Definition joins (b b' : blk) (m : list blk) : Prop :=
  (m = [b; b'] /\ bcat b <> bcat b') \/
  (exists c, m = [c] /\ bcat c = bcat b /\ bcat b = bcat b' /\ bp c = bp b /\ bs c = bs b + bs b').

Lemma merged_refl (s : st) : wfl cat 0 (bl s) -> cs s = tot (bl s) -> merged s s.
Proof. intros H1 H2. repeat split; auto. Qed.

Lemma events_trans (s s' s'' : st) : events s s' -> events s' s'' -> events s s''.
Proof. intros H1 H2 p. specialize (H1 p). specialize (H2 p). lia. Qed.

Lemma merged_trans (s s' s'' : st) : merged s s' -> merged s' s'' -> merged s s''.
Proof.
  intros (A1 & A2 & A3 & A4 & A5 & A6 & A7) (B1 & B2 & B3 & B4 & B5 & B6 & B7).
  split; [exact B1|]. split; [exact B2|]. split; [congruence|]. split; [congruence|]. split; [congruence|].
  split; [|eapply events_trans; eauto]. intros p. rewrite B6. apply A6.
Qed.

Lemma merge_next_spec (q : list blk) b b' t c n g a r f :
  let s := ST (q ++ b :: b' :: t) c n g a r f in
  wfl cat 0 (bl s) -> cs s = tot (bl s) ->
  wp (merge_next managed (length q) s)
     (fun x => exists m, bl (fst x) = q ++ m ++ t /\ joins b b' m /\ merged s (fst x)).
Proof.
  intros s Hw Hc. unfold s in *. clear s. cbn [bl cs] in *.
  destruct b as [pb zb [[ib cb lb]|]]; destruct b' as [pb' zb' [[ib' cb' lb']|]].
  all: repeat (progress (rewrite ?wfl_app, ?tot_app in Hw; cbn [wfl tot bp bs bd] in Hw)).
  all: unfold okb, okd in Hw; cbn [bp bs bd ev ecat] in Hw; dest_all; flat_lens; subst.
  all: step_all; cbn [fst].
  all: first
   [ eexists [_; _]; split; [cbn [bl app]; reflexivity|split; [left; split; [reflexivity|rewrite ?bcat_some, ?bcat_none; congruence]|]]
   | eexists [_]; split; [cbn [bl app]; reflexivity|split; [right; eexists; split; [reflexivity|rewrite ?bcat_some, ?bcat_none; cbn [bp bs]; auto]|]] ].
  all: unfold merged; cbn [bl cs tag]; repeat match goal with |- _ /\ _ => split end.
  all: try (solve [fin_wfl]); try (solve [fin_tot]); try (solve [fin_step]); try reflexivity.
  all: try (intros ?; fin_cnt0; own_fin).
Qed.

Ltac chain_R :=
  let R := fresh "R" in let HR := fresh "HR" in let Ht := fresh "Ht" in
  intros R HR Ht; cbn [app]; rewrite ?map_cons, ?bcat_some, ?bcat_none in *;
  repeat rewrite chain_cons in Ht; repeat rewrite chain_cons; dest_all;
  repeat match goal with |- _ /\ _ => split end;
  first [ exact Logic.I | apply HR; congruence | assumption | eapply chain_tail; eassumption
        | match goal with H : chain R (?x :: ?l) |- chain R (?y :: ?l) => replace y with x by congruence; exact H end ].

Lemma merge_adj_spec (q : list blk) p b t c n g a r f :
  let s := ST (q ++ p :: b :: t) c n g a r f in
  wfl cat 0 (bl s) -> cs s = tot (bl s) ->
  wp (merge_adj managed (S (length q)) s)
     (fun x => exists p' u, bl (fst x) = q ++ p' :: u /\ bcat p' = bcat p /\
        (forall R : option nat -> option nat -> Prop, (forall x y, x <> y -> R x y) ->
           chain R (map bcat t) -> chain R (map bcat (p' :: u))) /\
        merged s (fst x) /\
        at_pos (fst x) (if snd x =? 0 then S (length q) else length q) (bp b)).
Proof.
  intros s Hw Hc. unfold s in *. clear s. cbn [bl cs] in *.
  destruct p as [pp zp [[ip cp lp]|]]; destruct b as [pb zb [[ib cb lb]|]].
  all: repeat (progress (rewrite ?wfl_app, ?tot_app in Hw; cbn [wfl tot bp bs bd] in Hw)).
  all: unfold okb, okd in Hw; cbn [bp bs bd ev ecat] in Hw; dest_all; flat_lens; subst.
  all: step_all; cbn [fst snd].
  all: eexists; eexists; split; [cbn [bl]; reflexivity|].
  all: split; [rewrite ?bcat_some, ?bcat_none; reflexivity|].
  all: split; [try (solve [chain_R])|].
  all: try (split; [unfold merged; cbn [bl cs tag]; repeat match goal with |- _ /\ _ => split end;
    try (solve [fin_wfl]); try (solve [fin_tot]); try (solve [fin_step]); try reflexivity;
    try (intros ?; fin_cnt0; own_fin)|]).
  all: try match goal with |- context [if ?c then _ else _] => split_if c end; try fin_step.
Qed.

(** Relations that hold between different types. *)
Definition loose (R : option nat -> option nat -> Prop) : Prop := forall x y, x <> y -> R x y.

Lemma loose_ree : loose Ree.
Proof. intros x y H E1 E2. congruence. Qed.
Lemma loose_rne : loose Rne.
Proof. intros x y H. exact H. Qed.

Lemma chain_glue R (q : list (option nat)) x l :
  chain R (q ++ [x]) -> chain R (x :: l) -> chain R (q ++ x :: l).
Proof. intros H1 H2. rewrite chain_mid. auto. Qed.

(** Replacing the neighbour of a list by one of the same type. *)
Lemma map_snoc (q : list blk) p : map bcat (q ++ [p]) = map bcat q ++ [bcat p].
Proof. now rewrite map_app. Qed.

Lemma merge_one (q : list blk) b t c n g a r f :
  let s := ST (q ++ b :: t) c n g a r f in
  wfl cat 0 (bl s) -> cs s = tot (bl s) ->
  wp (merge_adj managed (length q) s)
     (fun x => merged s (fst x) /\
        at_pos (fst x) (if snd x =? 0 then length q else pred (length q)) (bp b) /\
        (forall R, loose R -> chain R (map bcat q) -> chain R (map bcat t) -> chain R (map bcat (bl (fst x))))).
Proof.
  intros s Hw Hc. destruct q as [|p q _] using rev_ind.
  - cbn [length merge_adj]. unfold s in *. clear s. cbn [app bl cs] in *. apply wp_bind.
    destruct t as [|b' t].
    + unfold merge_next, nblk. cbn [bl length Nat.leb wp fst snd].
      split; [now apply merged_refl|]. split.
      * exists b. split; [reflexivity|]. cbn [wfl] in Hw. destruct Hw as (_ & (H & _) & _). lia.
      * auto.
    + eapply wp_mono; [apply (merge_next_spec [] b b' t); auto|]. cbn beta. intros [s' u] (m & E & Hm & Hg).
      cbn [fst app] in *. cbn [wp fst snd]. split; [exact Hg|]. destruct Hw as (Hb & (Hz & _) & _).
      destruct Hm as [[-> Hne]|(x & -> & Hx & He & Hp & Hs)].
      * split.
        -- exists b. rewrite E. split; [reflexivity|]. lia.
        -- intros R HR _ Ht. rewrite E. cbn [app]. rewrite !map_cons in *. rewrite chain_cons. split; [now apply HR|exact Ht].
      * split.
        -- exists x. rewrite E. split; [reflexivity|]. lia.
        -- intros R HR _ Ht. rewrite E. cbn [app]. rewrite !map_cons in *. rewrite Hx, He. exact Ht.
  - rewrite last_length. cbn [pred]. unfold s in *. clear s. rewrite <- app_assoc in *. cbn [app] in *.
    eapply wp_mono; [apply merge_adj_spec; auto|]. cbn beta. intros [s' o] (p' & u & E & Hb & Hch & Hm & Ha).
    cbn [fst snd] in *. split; [exact Hm|]. split; [exact Ha|].
    intros R HR Hq Ht. rewrite E, map_app, map_cons. rewrite map_snoc in Hq.
    apply chain_glue; [rewrite Hb; exact Hq|]. apply (Hch R HR Ht).
Qed.

(** The two calls at the ends of a run of new blocks, last one first. *)
Lemma merge_run (q : list blk) b1 m b2 t c n g a r f :
  let s := ST (q ++ b1 :: m ++ b2 :: t) c n g a r f in
  wfl cat 0 (bl s) -> cs s = tot (bl s) ->
  wp (merge_adj managed (S (length m + length q)) s)
     (fun x => wp (merge_adj managed (length q) (fst x)) (fun y => merged s (fst y) /\
        (forall R, loose R -> chain R (map bcat q) -> chain R (map bcat (b1 :: m ++ [b2])) ->
            chain R (map bcat t) -> chain R (map bcat (bl (fst y)))))).
Proof.
  intros s Hw Hc. unfold s in *. clear s.
  assert (exists q0 p, q ++ b1 :: m = q0 ++ [p] /\ length q0 = length m + length q /\
    ((q0 = q /\ p = b1 /\ m = []) \/ exists m0, m = m0 ++ [p] /\ q0 = q ++ b1 :: m0)) as (q0 & p & E & El & Hcase).
  { destruct m as [|x m _] using rev_ind.
    - exists q, b1. split; [reflexivity|]. split; [reflexivity|]. auto.
    - exists (q ++ b1 :: m), x. rewrite <- app_assoc. split; [reflexivity|]. split.
      + rewrite !app_length. cbn [length]. lia.
      + right. eauto. }
  assert (q ++ b1 :: m ++ b2 :: t = q0 ++ p :: b2 :: t) as E2.
  { transitivity ((q ++ b1 :: m) ++ b2 :: t); [now rewrite <- app_assoc|]. rewrite E. now rewrite <- app_assoc. }
  cbn [bl cs] in *. rewrite E2 in *. rewrite <- El.
  eapply wp_mono; [apply merge_adj_spec; auto|]. cbn beta.
  intros [s' o] (p' & u & E' & Hb & Hch & Hm & Ha). cbn [fst] in *.
  destruct s' as [l' c' n' g' a' r' f']. cbn [bl] in E'. subst l'.
  pose proof Hm as (W & C & C2 & _). cbn [bl cs] in *.
  assert (exists x rest, q0 ++ p' :: u = q ++ x :: rest /\
    forall R, loose R -> chain R (map bcat (b1 :: m ++ [b2])) -> chain R (map bcat t) -> chain R (map bcat rest))
    as (x & rest & E3 & Hx).
  { destruct Hcase as [(-> & -> & ->)|(m0 & -> & ->)].
    - exists p', u. split; [reflexivity|]. intros R HR _ Ht.
      apply (chain_tail R (bcat p')). rewrite <- map_cons. apply Hch; auto.
    - exists b1, (m0 ++ p' :: u). rewrite <- app_assoc. split; [reflexivity|].
      intros R HR H1 H2. rewrite map_app, map_cons.
      apply chain_glue; [|rewrite <- map_cons; apply Hch; auto].
      rewrite map_cons in H1. apply chain_tail in H1. rewrite <- app_assoc, !map_app in H1. cbn [app map] in H1.
      rewrite chain_mid in H1. rewrite Hb. tauto. }
  rewrite E3 in *.
  eapply wp_mono; [apply (merge_one q x rest); auto|]. cbn beta.
  intros [s2 o2] (M2 & _ & Hc2). cbn [fst] in *. split; [eapply merged_trans; eauto|].
  intros R HR H1 H2 H3. apply Hc2; auto.
Qed.

(** The two calls of merge_with_next_block at the ends of a run of new blocks. *)
Lemma next_run (q B t : list blk) c n g a r f :
  let s := ST (q ++ B ++ t) c n g a r f in
  wfl cat 0 (bl s) -> cs s = tot (bl s) -> B <> [] ->
  wp (merge_next managed (length q + length B - 1) s)
     (fun x => wp (if 0 <? length q then merge_next managed (length q - 1) (fst x) else Ok (fst x, false))
        (fun y => merged s (fst y) /\
        (forall R, loose R -> chain R (map bcat q) -> chain R (map bcat B) ->
            chain R (map bcat t) -> chain R (map bcat (bl (fst y)))))).
Proof.
  intros s Hw Hc HB. unfold s in *. clear s. cbn [bl cs] in *.
  destruct B as [|y B _] using rev_ind; [congruence|]. clear HB.
  replace (length q + length (B ++ [y]) - 1) with (length (q ++ B)) by (rewrite !app_length; cbn [length]; lia).
  assert (wp (merge_next managed (length (q ++ B)) (ST (q ++ (B ++ [y]) ++ t) c n g a r f))
    (fun x => exists u, bl (fst x) = q ++ u /\ u <> [] /\ merged (ST (q ++ (B ++ [y]) ++ t) c n g a r f) (fst x) /\
       (forall R, loose R -> chain R (map bcat (B ++ [y])) -> chain R (map bcat t) -> chain R (map bcat u)))) as H1.
  { assert (q ++ (B ++ [y]) ++ t = (q ++ B) ++ y :: t) as E by (rewrite <- !app_assoc; reflexivity).
    rewrite E in *. destruct t as [|z t].
    - unfold merge_next, nblk. cbn [bl]. rewrite last_length.
      destruct (Nat.leb_spec (S (length (q ++ B))) (S (length (q ++ B)))) as [_|L]; [|lia].
      cbn [wp fst bl]. exists (B ++ [y]). split; [now rewrite <- app_assoc|].
      split; [destruct B; discriminate|]. split; [apply merged_refl; auto|]. auto.
    - eapply wp_mono; [apply merge_next_spec; auto|]. cbn beta. intros [s' o] (m & E1 & Hj & Hm). cbn [fst] in *.
      exists (B ++ m ++ t). split; [now rewrite E1, <- app_assoc|].
      split; [destruct Hj as [[-> _]|(? & -> & _)]; destruct B; discriminate|].
      split; [exact Hm|]. intros R HR C1 C2. rewrite map_snoc in C1.
      destruct Hj as [[-> Hne]|(x & -> & Hx & He & _)].
      + cbn [app]. rewrite map_app. apply chain_glue; [exact C1|]. rewrite !map_cons in *. rewrite chain_cons. split; [now apply HR|exact C2].
      + cbn [app]. rewrite map_app, map_cons. apply chain_glue; [now rewrite Hx|]. rewrite map_cons in C2.
        rewrite Hx, He. exact C2. }
  eapply wp_mono; [exact H1|]. cbn beta. intros [s' o] (u & E & Hu & Hm & Hch). cbn [fst] in *.
  destruct q as [|p q _] using rev_ind.
  - cbn [length Nat.ltb Nat.leb wp fst]. split; [exact Hm|]. intros R HR _ C1 C2. rewrite E. cbn [app]. now apply Hch.
  - rewrite last_length. cbn [Nat.ltb Nat.leb Nat.sub]. rewrite Nat.sub_0_r.
    destruct s' as [l' c' n' g' a' r' f']. cbn [bl] in E. subst l'. destruct u as [|z u]; [congruence|].
    pose proof Hm as (W & C & C2 & _). rewrite <- app_assoc in *. cbn [app bl cs] in *.
    rewrite <- !app_assoc in *. cbn [app] in *.
    eapply wp_mono; [apply (merge_next_spec q p z u); auto|]. cbn beta.
    intros [s2 o2] (m & E1 & Hj & Hm2). cbn [fst] in *. split; [eapply merged_trans; eauto|].
    intros R HR C1 C3 C4. specialize (Hch R HR C3 C4). rewrite map_snoc in C1. rewrite E1.
    destruct Hj as [[-> Hne]|(x & -> & Hx & He & _)].
    + cbn [app]. rewrite map_app. rewrite map_cons. apply chain_glue; [exact C1|].
      rewrite map_cons in *. rewrite chain_cons. split; [now apply HR|exact Hch].
    + cbn [app]. rewrite map_app, map_cons. apply chain_glue; [now rewrite Hx|]. rewrite map_cons in Hch.
      rewrite Hx, He. exact Hch.
Qed.

End P.
