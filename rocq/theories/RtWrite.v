(** Assignment to the value of an entry: nothing but that value changes. *)

From Coq Require Import List ZArith Lia Bool Permutation.
From Verif Require Import Base RtModel RtSpec RtBox RtPerm RtTree RtShape RtSplit RtInsert RtSearch RtObs RtErase.
Import ListNotations.
Open Scope nat_scope.

Section W.
Context {V : Type}.
Implicit Types (n t : nd V) (s : st V).

Fixpoint setv (a : nat) (w : V) (n : nd V) : nd V :=
  match n with
  | NV a' p b v => NV a' p b (if Nat.eqb a' a then w else v)
  | ND a' p lf b c ok ks => ND a' p lf b c ok (map (setv a w) ks)
  end.

Lemma setv_na a w n : na (setv a w n) = na n.
Proof. now destruct n. Qed.
Lemma setv_box a w n : nbox (setv a w n) = nbox n.
Proof. now destruct n. Qed.
Lemma setv_par a w n : npar (setv a w n) = npar n.
Proof. now destruct n. Qed.
Lemma setv_ok a w n : nok (setv a w n) = nok n.
Proof. now destruct n. Qed.
Lemma setv_cnt a w n : ncnt (setv a w n) = ncnt n.
Proof. now destruct n. Qed.
Lemma setv_dir a w n : is_dir (setv a w n) = is_dir n.
Proof. now destruct n. Qed.
Lemma map_setv_box a w ks : map nbox (map (setv a w) ks) = map nbox ks.
Proof. rewrite map_map. apply map_ext. apply setv_box. Qed.

Lemma setv_notin a w n : ~ In a (addrs n) -> setv a w n = n.
Proof.
  induction n as [a' p b v|a' p lf b c ok ks IH] using nd_ind2; intros H; cbn [setv addrs] in *.
  - destruct (Nat.eqb_spec a' a); [|reflexivity]. exfalso. apply H. now left.
  - f_equal. assert (G : ~ In a (flat_map addrs ks)) by (intros G; apply H; now right). clear H.
    induction IH as [|k ks Hk IH IH2]; [reflexivity|]. cbn [map flat_map] in *. rewrite in_app_iff in G.
    rewrite Hk by tauto. f_equal. apply IH2. tauto.
Qed.
Lemma setv_plug a w c : forall n, In a (addrs n) -> NoDup (addrs (plug c n)) -> setv a w (plug c n) = plug c (setv a w n).
Proof.
  induction c as [|f c IH]; intros n Ha N; cbn [plug] in *; [reflexivity|].
  pose proof (nodup_plug _ _ N) as N1. rewrite IH; [|eapply Permutation_in; [apply Permutation_sym, addrs_plug1|apply in_or_app; auto]|exact N].
  f_equal. destruct (plug1_sep _ _ _ Ha N1) as [N2 N3]. unfold plug1. cbn [setv]. f_equal. rewrite map_app. cbn [map].
  assert (H : forall l, (forall k, In k l -> In k (fl f ++ frt f)) -> map (setv a w) l = l).
  { induction l as [|k l IHl]; intros H; [reflexivity|]. cbn [map]. rewrite setv_notin, IHl; auto.
    - intros k' Hk. apply H. now right.
    - apply N3, H. now left. }
  rewrite !H; auto; intros k Hk; apply in_or_app; auto.
Qed.
Lemma upd_setv a p b v w t : get a t = Some (NV a p b v) -> NoDup (addrs t) -> upd a (NV a p b w) t = setv a w t.
Proof.
  intros G N. destruct (get_ctx _ _ _ G) as (c & -> & E). cbn [na] in E.
  pose proof (upd_plug c (NV a p b v) (NV a p b w) N) as U. cbn [na] in U. rewrite U.
  rewrite setv_plug; [|now left|exact N]. cbn [setv]. now rewrite Nat.eqb_refl.
Qed.

Lemma setv_addrs a w n : addrs (setv a w n) = addrs n.
Proof.
  induction n as [a' p b v|a' p lf b c ok ks IH] using nd_ind2; cbn [setv addrs]; [reflexivity|]. f_equal.
  induction IH as [|k ks Hk IH IH2]; [reflexivity|]. cbn [map flat_map]. now rewrite Hk, IH2.
Qed.
Lemma setv_lk a w n : lk n -> lk (setv a w n).
Proof.
  induction n as [a' p b v|a' p lf b c ok ks IH] using nd_ind2; [auto|]. cbn [setv]. rewrite !lk_dir. rewrite Forall_map.
  intros H. rewrite Forall_forall in *. intros k Ik. specialize (H k Ik). rewrite setv_par. split; [apply H|]. apply IH; [exact Ik|apply H].
Qed.
Lemma setv_shape C tg kl a w : forall n h lo hi, shape C tg kl h lo hi n -> shape C tg kl h lo hi (setv a w n).
Proof.
  intros n. induction n as [a' p b v|a' p lf b c ok ks IH] using nd_ind2; intros [|h] lo hi H; try exact H. cbn [setv shape] in *.
  rewrite map_length, map_setv_box. destruct H as (H1 & H2 & H3 & H4 & H5). repeat (split; [assumption|]).
  rewrite Forall_map. rewrite Forall_forall in *. auto.
Qed.
Lemma setv_search dc vc a w n : forall d, search_descend dc vc d (setv a w n) =
  map (fun x => match x with (a', d', b, v) => (a', d', b, if Nat.eqb a' a then w else v) end) (search_descend dc vc d n).
Proof.
  induction n as [a' p b v|a' p lf b c ok ks IH] using nd_ind2; intros d; cbn [setv search_descend].
  - now destruct (vc b).
  - destruct (dc b); [|reflexivity]. induction IH as [|k ks Hk IH IH2]; [reflexivity|]. cbn [map flat_map]. now rewrite Hk, IH2, map_app.
Qed.
Lemma setv_walk a w n : walk_from (setv a w n) = walk_from n.
Proof.
  induction n as [a' p b v|a' p lf b c ok ks IH] using nd_ind2; cbn [setv walk_from]; [reflexivity|]. f_equal.
  induction IH as [|k ks Hk IH IH2]; [reflexivity|]. cbn [map flat_map]. now rewrite Hk, IH2.
Qed.
Lemma setv_nvals a w n : nvals (setv a w n) = nvals n.
Proof.
  induction n as [a' p b v|a' p lf b c ok ks IH] using nd_ind2; cbn [setv nvals]; [reflexivity|].
  f_equal. rewrite map_map. apply map_ext_in. now rewrite Forall_forall in IH.
Qed.
Lemma setv_check_kid C emin a w n : forall pa pp plf pb pc pok pks pks',
  check_node C emin (Some (ND pa pp plf pb pc pok pks')) (setv a w n) = check_node C emin (Some (ND pa pp plf pb pc pok pks)) n.
Proof.
  induction n as [a' p b v|a' p lf b c ok ks IH] using nd_ind2; intros pa pp plf pb pc pok pks pks'; [reflexivity|].
  cbn [setv check_node npar nbox is_dir]. rewrite map_length, map_setv_box.
  assert (G : forall l l', forallb (check_node C emin (Some (ND a' p lf b c ok l))) (map (setv a w) ks) = forallb (check_node C emin (Some (ND a' p lf b c ok l'))) ks).
  { intros l l'. induction IH as [|k ks Hk IH IH2]; [reflexivity|]. cbn [map forallb]. rewrite IH2. f_equal. apply Hk. }
  now rewrite (G _ ks).
Qed.
Lemma setv_check C emin a w n : check_node C emin None (setv a w n) = check_node C emin None n.
Proof.
  destruct n as [a' p b v|a' p lf b c ok ks]; [reflexivity|]. cbn [setv check_node]. rewrite map_length, map_setv_box.
  assert (G : forall l l', forallb (check_node C emin (Some (ND a' p lf b c ok l))) (map (setv a w) ks) = forallb (check_node C emin (Some (ND a' p lf b c ok l'))) ks).
  { intros l l'. induction ks as [|k ks IH]; [reflexivity|]. cbn [map forallb]. rewrite IH. f_equal. apply setv_check_kid. }
  now rewrite (G _ ks).
Qed.

Lemma setv_get a w n x : get x (setv a w n) = option_map (setv a w) (get x n).
Proof.
  induction n as [a' p b v|a' p lf b c ok ks IH] using nd_ind2; cbn [setv get na].
  - destruct (Nat.eqb a' x); reflexivity.
  - destruct (Nat.eqb a' x); [reflexivity|]. induction IH as [|k ks Hk IH IH2]; [reflexivity|]. cbn [map].
    rewrite Hk, IH2. now destruct (get x k).
Qed.

Variable C : cfg.
Definition write (a : nat) (w : V) (s : st V) : st V := ST (setv a w (root s)) (nxt s).

Lemma upd_write tg rl kl H s a p b v w : sinv C tg rl kl H s -> get a (root s) = Some (NV a p b v) ->
  ST (upd a (NV a p b w) (root s)) (nxt s) = write a w s.
Proof. intros [_ L] G. unfold write. f_equal. apply upd_setv with (v := v); [exact G|]. apply (l_nodup _ _ L). Qed.
Lemma write_sinv tg rl kl H s a w : sinv C tg rl kl H s -> sinv C tg rl kl H (write a w s).
Proof.
  intros [[Hh Hs] [L1 L2 L3 L4]]. constructor; cbn [root nxt write].
  - split; [exact Hh|]. now apply setv_shape.
  - constructor; cbn [root nxt write].
    + now rewrite setv_par.
    + now apply setv_lk.
    + now rewrite setv_addrs.
    + now rewrite setv_addrs.
Qed.
Lemma write_entries tg rl kl H s a p b v w : sinv C tg rl kl H s -> get a (root s) = Some (NV a p b v) ->
  exists l, Permutation (entries (root s)) ((b, v) :: l) /\ Permutation (entries (root (write a w s))) ((b, w) :: l).
Proof.
  intros [_ L] G. destruct (get_ctx _ _ _ G) as (c & E & _). exists (centries c). cbn [root write]. split.
  - rewrite E, entries_plug. reflexivity.
  - rewrite E. rewrite setv_plug; [|now left|rewrite <- E; apply (l_nodup _ _ L)]. rewrite entries_plug. cbn [setv]. now rewrite Nat.eqb_refl.
Qed.
Lemma write_holds tg rl kl H s l l' a p b v w : holds C tg rl kl H s l -> get a (root s) = Some (NV a p b v) ->
  Permutation l ((b, v) :: l') -> holds C tg rl kl H (write a w s) ((b, w) :: l').
Proof.
  intros (Si & P & D) G Hp. split; [now apply write_sinv|]. rewrite contents_entries in *. destruct (write_entries _ _ _ _ _ _ _ _ _ w Si G) as (m & P1 & P2).
  split.
  - rewrite P2. constructor. apply (Permutation_cons_inv (a := (b, v))). now rewrite <- P1, P, Hp.
  - apply (Permutation_Forall Hp) in D. inversion D; subst. constructor; auto.
Qed.
End W.
