(** Histories with removals, copies, moves and bulk loads. *)

From Coq Require Import List ZArith Lia Bool Permutation.
From Verif Require Import Base RtModel RtSpec RtSpec2 RtBox RtPerm RtTree RtShape RtSplit RtInsert RtSearch RtObs RtErase RtErase2 RtBulk RtWrite.
Import ListNotations.
Open Scope nat_scope.

Section O.
Context {V : Type}.
Variable C : cfg.
Hypothesis T : traits_ok C.
Implicit Types (n t : nd V) (s : st V) (l : list (box * V)).

(** *** The directories above a value *)
Lemma sizes_dir a a' p lf b c ok (ks : list (nd V)) : a' <> a -> sizes_above a (ND a' p lf b c ok ks) =
  option_map (cons (length ks)) (fold_right (fun k r => match sizes_above a k with Some p => Some p | None => r end) None ks).
Proof. intros H. cbn [sizes_above na]. destruct (Nat.eqb_spec a' a); [congruence|]. reflexivity. Qed.

Lemma sizes_notin a n : ~ In a (addrs n) -> sizes_above a n = None.
Proof.
  induction n as [a' p b v|a' p lf b c ok ks IH] using nd_ind2; intros H.
  - cbn [sizes_above na]. cbn [addrs] in H. destruct (Nat.eqb_spec a' a); [|reflexivity]. exfalso. apply H. now left.
  - cbn [addrs] in H. rewrite sizes_dir by (intros E; apply H; now left).
    assert (E : fold_right (fun k r => match sizes_above a k with Some p => Some p | None => r end) None ks = None); [|now rewrite E].
    assert (H2 : ~ In a (flat_map addrs ks)) by (intros Hi; apply H; now right). clear H.
    induction ks as [|k ks IHk]; [reflexivity|]. cbn [fold_right flat_map] in *. apply Forall_cons_iff in IH. destruct IH as [I1 I2].
    rewrite I1 by (intros Hi; apply H2, in_or_app; now left). apply IHk; [exact I2|]. intros Hi. apply H2, in_or_app. now right.
Qed.

Lemma sizes_plug c : forall n a q, In a (addrs n) -> NoDup (addrs (plug c n)) -> sizes_above a n = Some q ->
  sizes_above a (plug c n) = Some (rev (map fsize c) ++ q).
Proof.
  induction c as [|f c IH]; intros n a q Hi N E; cbn [plug map rev app]; [exact E|].
  rewrite <- app_assoc. cbn [app]. apply IH; [|exact N|].
  - unfold plug1. cbn [addrs]. right. apply in_flat_map. exists n. split; [apply in_or_app; right; now left|exact Hi].
  - pose proof (nodup_plug c (plug1 f n) N) as N0. clear N. rename N0 into N. unfold plug1 in N |- *. cbn [addrs] in N. apply NoDup_cons_iff in N. destruct N as [N1 N2].
    rewrite sizes_dir.
    2:{ intros Ea. rewrite Ea in N1. apply N1. apply in_flat_map. exists n. split; [apply in_or_app; right; now left|exact Hi]. }
    rewrite flat_map_app in N2. cbn [flat_map] in N2.
    assert (Hl : forall k, In k (fl f) -> sizes_above a k = None).
    { intros k Hk. apply sizes_notin. intros Hk2. assert (I1 : In a (flat_map addrs (fl f))) by (apply in_flat_map; eauto).
      assert (I2 : In a (addrs n ++ flat_map addrs (frt f))) by (apply in_or_app; now left).
      clear - N2 I1 I2. induction (flat_map addrs (fl f)) as [|z m IH]; [destruct I1|]. cbn [app] in N2. apply NoDup_cons_iff in N2.
      destruct N2 as [M1 M2]. destruct I1 as [->|I1]; [apply M1; apply in_or_app; now right|auto]. }
    assert (G : fold_right (fun k r => match sizes_above a k with Some p => Some p | None => r end) None (fl f ++ n :: frt f) = Some q).
    { clear N1 IH. revert N2 Hl. generalize (fl f). intros m. induction m as [|k m IHm]; intros N2 Hl; cbn [app fold_right]; [now rewrite E|].
      rewrite (Hl k (or_introl eq_refl)). apply IHm; [|intros k' Hk'; apply Hl; now right].
      cbn [flat_map] in N2. rewrite <- app_assoc in N2. clear - N2.
      induction (addrs k) as [|z m' IH]; [exact N2|]. cbn [app] in N2. apply NoDup_cons_iff in N2. apply IH, N2. }
    rewrite G. cbn [option_map]. unfold fsize. rewrite app_length. cbn [length]. f_equal. f_equal. lia.
Qed.

Lemma frames_above tg rl kl H s a p b v : 1 <= rl -> rl <= 2 -> 1 <= kl -> kl <= mn C -> sinv C tg rl kl H s -> get a (root s) = Some (NV a p b v) ->
  exists f c, root s = plug c (plug1 f (NV a p b v)) /\ sizes_above a (root s) = Some (rev (map fsize c) ++ [fsize f]).
Proof.
  intros R1 R2 K1 K2 [[Hh Hs] [_ _ Ln _]] Hg. destruct (value_frames C tg rl R1 R2 kl K1 K2 H (root s) a p b v Hs Hh Hg) as (f & c & Et & _).
  exists f, c. split; [exact Et|]. rewrite Et in *.
  assert (E : sizes_above a (plug (f :: c) (NV a p b v)) = Some (rev (map fsize (f :: c)) ++ [])).
  { apply sizes_plug; [now left|exact Ln|]. cbn [sizes_above na]. now rewrite Nat.eqb_refl. }
  rewrite app_nil_r in E. exact E.
Qed.

(** *** Weaker bounds *)
Lemma shape_loose tg kl kl' h : kl' <= kl -> forall n lo hi, shape C tg kl h lo hi n -> shape C false kl' h lo hi n.
Proof.
  intros Hk. induction h as [|h IH]; intros [|a p lf b c ok ks] lo hi Hs; try contradiction; cbn [shape] in *; [exact Hs|].
  destruct Hs as (E1 & E2 & E3 & E4 & E5). split; [exact E1|]. split; [exact E2|]. split; [exact E3|]. split.
  - eapply fit_loose; [eapply shape_boxes; exact E5|exact E4].
  - rewrite Forall_forall in *. intros k Hk0. specialize (E5 k Hk0). apply IH in E5. destruct h as [|h]; [destruct k; exact E5|].
    destruct k as [|ka kp klf kb kc kok kks]; [contradiction|]. cbn [shape] in *. destruct E5 as (Q1 & Q2 & Q3 & Q4 & Q5).
    split; [exact Q1|]. split; [exact Q2|]. split; [lia|]. auto.
Qed.

Lemma sinv_loose tg rl kl rl' kl' H s : rl' <= rl -> kl' <= kl -> sinv C tg rl kl H s -> sinv C false rl' kl' H s.
Proof.
  intros Hr Hk [[Hh Hs] L]. constructor; [|exact L]. split; [exact Hh|]. apply shape_loose with (kl' := kl') in Hs; [|exact Hk].
  destruct H as [|h]; [lia|]. destruct (root s) as [|ka kp klf kb kc kok kks]; [contradiction|]. cbn [shape] in *.
  destruct Hs as (Q1 & Q2 & Q3 & Q4 & Q5). split; [exact Q1|]. split; [exact Q2|]. split; [|auto].
  assert (rootlo rl' (S h) <= rootlo rl (S h)) by (unfold rootlo; destruct (S h =? 1); lia). lia.
Qed.

Lemma clear_sinv tg rl kl H s : sinv C tg rl kl H s -> sinv C tg rl kl 1 (clear C s) /\ nok (root (clear C s)) = false /\ entries (root (clear C s)) = [].
Proof.
  intros [_ [_ _ Nd Bd]]. unfold clear. split; [|split; reflexivity]. constructor; cbn [root nxt create_dir].
  - split; [lia|]. cbn [shape map length rootlo Nat.eqb]. split; [reflexivity|]. split; [reflexivity|].
    split; [cbn [length]; lia|]. split; [|constructor]. split; [apply repeat_length|]. destruct tg; [reflexivity|constructor].
  - constructor; cbn [npar addrs flat_map]; [reflexivity|exact I|constructor; [intros []|constructor]|].
    constructor; [|constructor]. rewrite Forall_forall in Bd. apply Bd. destruct (root s); now left.
Qed.

Lemma dims_perm l l' e : Permutation l (e :: l') -> Forall (fun e : box * V => length (fst e) = dims C) l -> Forall (fun e : box * V => length (fst e) = dims C) l'.
Proof. intros P F. apply (Permutation_Forall P) in F. now apply Forall_cons_iff in F. Qed.

Notation W1 := (le_n 1).
Notation W2 := (le_S 1 1 (le_n 1)).

(** *** Insertions and removals that keep the leaf *)
Lemma kept_holds s l : kept C s l -> exists H, holds C true 2 (mn C) H s l /\ nok (root s) = false.
Proof.
  induction 1 as [|s l b v s' B IH Hb E|s l l' a d p b v s' B IH Hg Hl Hp E|s l l' a p b v w B IH Hg Hp|s l B IH].
  - destruct (@init_sinv V C true 2 ltac:(lia) ltac:(lia) (mn C) (t_min C T) (le_n _) (init C) eq_refl) as (Si & N & Ee & _).
    exists 1. split; [|exact N]. split; [exact Si|]. rewrite contents_entries, Ee. split; [reflexivity|constructor].
  - destruct IH as (H & (Si & P & D) & N).
    destruct (insert_ok C T true 2 ltac:(lia) ltac:(lia) (mn C) (t_min C T) (le_n _) s b v H Si Hb) as [[R _]|(s1 & H1 & R & G & P1)].
    + rewrite N. discriminate.
    + congruence.
    + assert (s1 = s') by congruence. subst s1. destruct G as (G1 & _ & _ & G4 & _).
      exists H1. split; [|auto]. split; [exact G1|]. rewrite contents_entries in *. rewrite P1, P.
      split; [reflexivity|]. constructor; auto.
  - destruct IH as (H & (Si & P & D) & N).
    destruct (frames_above true 2 (mn C) H s a p b v ltac:(lia) ltac:(lia) (t_min C T) (le_n _) Si Hg) as (f & c & Et & Es).
    assert (Hc : c = [] \/ mn C < fsize f).
    { destruct Hl as (q & k & Eq & Hq). rewrite Es in Eq. injection Eq as Eq. apply app_inj_tail in Eq. destruct Eq as [Eq <-].
      destruct Hq as [->|Hq]; [left|right; exact Hq]. destruct c as [|g c]; [reflexivity|]. cbn [map rev] in Eq.
      destruct (rev (map fsize c)); discriminate. }
    destruct (erase_leaf_ok C T true 2 ltac:(lia) ltac:(lia) (mn C) (t_min C T) (le_n _) s H a d p b v f c Si Hg Et Hc) as (s1 & R & Si1 & P1 & N1 & _).
    assert (s1 = s') by congruence. subst s1. exists H. split; [|congruence]. split; [exact Si1|].
    rewrite contents_entries in *. split; [|eapply dims_perm; eauto].
    apply (Permutation_cons_inv (a := (b, v))). rewrite <- Hp, <- P, P1. reflexivity.
  - destruct IH as (H & Hh & N). exists H. unfold assigned. rewrite (upd_write C true 2 (mn C) H s a p b v w (proj1 Hh) Hg).
    split; [eapply write_holds; eauto|]. cbn [root write]. now rewrite setv_ok.
  - destruct IH as (H & (Si & P & D) & N). exists 1. destruct (clear_sinv _ _ _ _ _ Si) as (S1 & S2 & S3).
    split; [|exact S2]. split; [exact S1|]. rewrite contents_entries, S3. split; [reflexivity|constructor].
Qed.

Lemma kept_erase_outcome s l a d p b v : kept C s l -> get a (root s) = Some (NV a p b v) -> leaf_stays C a s ->
  exists s', erase C a d s = Ok s'.
Proof.
  intros B Hg Hl. destruct (kept_holds _ _ B) as (H & (Si & P & D) & N).
  destruct (frames_above true 2 (mn C) H s a p b v ltac:(lia) ltac:(lia) (t_min C T) (le_n _) Si Hg) as (f & c & Et & Es).
  assert (Hc : c = [] \/ mn C < fsize f).
  { destruct Hl as (q & k & Eq & Hq). rewrite Es in Eq. injection Eq as Eq. apply app_inj_tail in Eq. destruct Eq as [Eq <-].
    destruct Hq as [->|Hq]; [left|right; exact Hq]. destruct c as [|g c]; [reflexivity|]. cbn [map rev] in Eq.
    destruct (rev (map fsize c)); discriminate. }
  destruct (erase_leaf_ok C T true 2 ltac:(lia) ltac:(lia) (mn C) (t_min C T) (le_n _) s H a d p b v f c Si Hg Et Hc) as (s1 & R & _). eauto.
Qed.

Lemma kept_insert_outcome s l b v : kept C s l -> length b = dims C ->
  (exists s', insert C b v s = Ok s') \/ (insert C b v s = Throw E_general /\ (2 <= mn C -> 2 ^ S (S (maxdepth C)) <= length l)).
Proof.
  intros B Hb. destruct (kept_holds _ _ B) as (H & (Si & P & D) & N).
  destruct (insert_ok C T true 2 ltac:(lia) ltac:(lia) (mn C) (t_min C T) (le_n _) s b v H Si Hb) as [[R Bd]|(s1 & H1 & R & G & P1)].
  - rewrite N. discriminate.
  - right. split; [exact R|]. intros Hm. destruct (le_lt_dec (2 ^ S (S (maxdepth C))) (length l)) as [|Hlt]; [auto|].
    exfalso. apply Bd. apply bounded_pow; auto using (le_n (mn C)). 1: exact (t_min C T).
    rewrite contents_entries in P. now rewrite (Permutation_length P).
  - left. eauto.
Qed.

(** *** All operations *)
Definition kld (ld : bool) : nat := if ld then 1 else mn C.
Lemma kld1 ld : 1 <= kld ld. Proof. destruct ld; [apply le_n|exact (t_min C T)]. Qed.
Lemma kldm ld : kld ld <= mn C. Proof. destruct ld; [exact (t_min C T)|apply le_n]. Qed.

Lemma bounded_pow1 tg kl N : 2 <= kl -> kl <= mn C -> N < 2 ^ S (maxdepth C) -> bounded (V := V) C tg 1 kl N.
Proof.
  intros Hk Hm HN H t [Hh Hs] HL. pose proof Hs as Hs0.
  apply (entries_low C tg 1 W1 W2 kl ltac:(lia) Hm) in Hs; [|exact Hk|exact Hh].
  destruct (le_lt_dec H (S (maxdepth C))) as [|Hgt]; [auto|exfalso].
  unfold rootlo in Hs. destruct (Nat.eqb_spec H 1); [lia|].
  pose proof (Nat.pow_le_mono_r 2 (S (maxdepth C)) (H - 1) ltac:(lia) ltac:(lia)). lia.
Qed.

Lemma stays_case tg rl kl H s a p b v f c : 1 <= rl -> rl <= 2 -> 1 <= kl -> kl <= mn C -> sinv C tg rl kl H s -> get a (root s) = Some (NV a p b v) ->
  root s = plug c (plug1 f (NV a p b v)) -> sizes_above a (root s) = Some (rev (map fsize c) ++ [fsize f]) ->
  leaf_stays C a s -> c = [] \/ mn C < fsize f.
Proof.
  intros _ _ _ _ _ _ _ Es (q & k & Eq & Hq). rewrite Es in Eq. injection Eq as Eq. apply app_inj_tail in Eq. destruct Eq as [Eq <-].
  destruct Hq as [->|Hq]; [left|right; exact Hq]. destruct c as [|g c]; [reflexivity|]. cbn [map rev] in Eq.
  destruct (rev (map fsize c)); discriminate.
Qed.

Lemma goes_case s a (f : fr V) (c : list (fr V)) : sizes_above a (root s) = Some (rev (map (fsize (V := V)) c) ++ [fsize f]) -> leaf_goes C a s ->
  exists g c', c = g :: c' /\ fsize f <= mn C /\
   (c' = [] /\ 2 <= fsize g /\ fsize g + mn C <= mx C + 2 \/
    c' <> [] /\ mn C < fsize g /\ (pinned s = true -> ncnt (root s) + mn C <= S (mx C))).
Proof.
  intros Es (q & g & k & Eq & Hk & Hq). rewrite Es in Eq. injection Eq as Eq.
  change (q ++ [g; k]) with (q ++ [g] ++ [k]) in Eq. rewrite app_assoc in Eq. apply app_inj_tail in Eq. destruct Eq as [Eq <-].
  destruct c as [|g0 c]; [destruct q; discriminate|]. cbn [map rev] in Eq. apply app_inj_tail in Eq. destruct Eq as [Eq <-].
  exists g0, c. split; [reflexivity|]. split; [exact Hk|]. destruct Hq as [(-> & H1 & H2)|(N & H1 & H2)].
  - left. split; [|auto]. destruct c as [|g1 c]; [reflexivity|]. cbn [map rev] in Eq. destruct (rev (map fsize c)); discriminate.
  - right. split; [|auto]. intros ->. cbn [map rev] in Eq. congruence.
Qed.

Lemma erase_any ld H s a d p b v : sinv C false 1 (kld ld) H s -> get a (root s) = Some (NV a p b v) -> leaf_stays C a s \/ leaf_goes C a s ->
  (erase C a d s = Throw E_general /\ ~ bounded (V := V) C false 1 (kld ld) (length (entries (root s)))) \/
  exists s' H', erase C a d s = Ok s' /\ sinv C false 1 (kld ld) H' s' /\ Permutation (entries (root s)) ((b, v) :: entries (root s')).
Proof.
  intros Si Hg Hc. destruct (frames_above false 1 (kld ld) H s a p b v W1 W2 (kld1 ld) (kldm ld) Si Hg) as (f & c & Et & Es).
  destruct Hc as [Hl|Hl].
  - pose proof (stays_case _ _ _ _ _ _ _ _ _ _ _ W1 W2 (kld1 ld) (kldm ld) Si Hg Et Es Hl) as Hc.
    destruct (erase_leaf_ok C T false 1 W1 W2 (kld ld) (kld1 ld) (kldm ld) s H a d p b v f c Si Hg Et Hc) as (s1 & R & Si1 & P1 & _).
    right. eauto.
  - destruct (goes_case s a f c Es Hl) as (g & c' & -> & Hf & Hc).
    apply (erase_dissolve_ok C T false (kld ld) (kld1 ld) (kldm ld) 1 s H a d p b v f g c' W1 W2 (kld1 ld) Si Hg Et Hf).
    destruct Hc as [Hc|(N & H1 & H2)]; [left; exact Hc|right]. auto.
Qed.

Lemma managed_holds ld s l : managed C ld s l -> exists H, holds C false 1 (kld ld) H s l.
Proof.
  induction 1 as [|l s Eld Hp F E|s l b v s' B IH Hb Hr E|s l l' a d p b v s' B IH Hg Hl Hp E|s l l' a p b v w B IH Hg Hp|s l B IH|s l B IH|s l B IH].
  - destruct (@init_sinv V C false 1 W1 W2 (kld ld) (kld1 ld) (kldm ld) (init C) eq_refl) as (Si & N & Ee & _).
    exists 1. split; [exact Si|]. rewrite contents_entries, Ee. split; [reflexivity|constructor].
  - subst ld. unfold bulk_load in E. destruct (stored0 C C eq_refl (le_n _) 1 (or_introl (le_n 1)) l F) as (S1 & S2 & S3).
    assert (Es : forall (n : nat), mx C < n -> 1 <= spl C n) by (intros n Hn; apply Hp; exact Hn).
    assert (Cap : forall l0 : list (nd V), mx C < length l0 <= length l -> Forall (fun s0 : list (nd V) => length s0 <= mx C) (split_segs C (spl C (length l0)) (seq 0 (dims C)) [l0])).
    { intros l0 Hl0. destruct (Hp (length l0) (proj1 Hl0)) as [P1 P2]. apply split_segs_capacity; auto.
      intros ->. cbn [length] in Hl0. lia. }
    destruct (bulk_levels_ok C T C eq_refl (le_n _) 1 (or_introl (le_n 1)) Es (length l) Cap _ _ _ _ _ S1 (Nat.eq_le_incl _ _ S3) (or_introl eq_refl) E) as (H & Si & Pe & _).
    exists H. split; [apply (sinv_loose true 1 1); auto|]. rewrite S2 in Pe. rewrite contents_entries. auto.
  - destruct IH as (H & Si & P & D).
    destruct (insert_ok C T false 1 W1 W2 (kld ld) (kld1 ld) (kldm ld) s b v H Si Hb Hr) as [[R _]|(s1 & H1 & R & G & P1)]; [congruence|].
    assert (s1 = s') by congruence. subst s1. exists H1. split; [apply G|]. rewrite contents_entries in *. rewrite P1, P.
    split; [reflexivity|]. constructor; auto.
  - destruct IH as (H & Si & P & D). destruct (erase_any ld H s a d p b v Si Hg Hl) as [[R _]|(s1 & H1 & R & Si1 & P1)]; [congruence|].
    assert (s1 = s') by congruence. subst s1. exists H1. split; [exact Si1|]. rewrite contents_entries in *. split; [|eapply dims_perm; eauto].
    apply (Permutation_cons_inv (a := (b, v))). rewrite <- Hp, <- P, P1. reflexivity.
  - destruct IH as (H & Hh). exists H. unfold assigned. rewrite (upd_write C false 1 (kld ld) H s a p b v w (proj1 Hh) Hg).
    eapply write_holds; eauto.
  - destruct IH as (H & Si & P & D). exists 1. destruct (clear_sinv _ _ _ _ _ Si) as (S1 & S2 & S3).
    split; [exact S1|]. rewrite contents_entries, S3. split; [reflexivity|constructor].
  - destruct IH as (H & Si & P & D). exists H. destruct (copy_ok _ _ _ _ _ _ Si) as (S1 & S2 & S3).
    split; [exact S1|]. rewrite contents_entries in *. rewrite S2. auto.
  - destruct IH as (H & Si & P & D). exists H. destruct (rehome_ok _ _ _ _ _ _ Si) as (S1 & S2 & S3).
    split; [exact S1|]. rewrite contents_entries in *. rewrite S2. auto.
Qed.

Lemma throw_bound ld s l : (exists H, holds C false 1 (kld ld) H s l) -> ~ bounded (V := V) C false 1 (kld ld) (length (entries (root s))) ->
  ld = false -> 2 <= mn C -> 2 ^ S (maxdepth C) <= length l.
Proof.
  intros (H & Si & P & D) Nb -> Hm. destruct (le_lt_dec (2 ^ S (maxdepth C)) (length l)) as [|Hlt]; [auto|].
  exfalso. apply Nb. apply bounded_pow1; [exact Hm|apply le_n|]. rewrite contents_entries in P. now rewrite (Permutation_length P).
Qed.

Lemma managed_erase_outcome ld s l a d p b v : managed C ld s l -> get a (root s) = Some (NV a p b v) -> leaf_stays C a s \/ leaf_goes C a s ->
  (exists s', erase C a d s = Ok s') \/ (erase C a d s = Throw E_general /\ (ld = false -> 2 <= mn C -> 2 ^ S (maxdepth C) <= length l)).
Proof.
  intros B Hg Hl. pose proof (managed_holds _ _ _ B) as Hh. pose proof Hh as (H & Si & P & D).
  destruct (erase_any ld H s a d p b v Si Hg Hl) as [[R Nb]|(s1 & H1 & R & _)]; [right|left; eauto].
  split; [exact R|]. eapply throw_bound; eauto.
Qed.

Lemma managed_insert_outcome ld s l b v : managed C ld s l -> length b = dims C -> has_room C s ->
  (exists s', insert C b v s = Ok s') \/ (insert C b v s = Throw E_general /\ (ld = false -> 2 <= mn C -> 2 ^ S (maxdepth C) <= length l)).
Proof.
  intros B Hb Hr. pose proof (managed_holds _ _ _ B) as Hh. pose proof Hh as (H & Si & P & D).
  destruct (insert_ok C T false 1 W1 W2 (kld ld) (kld1 ld) (kldm ld) s b v H Si Hb Hr) as [[R Nb]|(s1 & H1 & R & G & P1)]; [right|left; eauto].
  split; [exact R|]. eapply throw_bound; eauto.
Qed.

(** *** Bulk loading *)
Definition wider (M : nat) : cfg := CFG (dims C) (mn C) M (maxdepth C) (forced C) (reins C) (srt C) (spl C).

Lemma bulk_any l s : (forall (n : nat), mx C < n -> 1 <= spl C n) -> Forall (fun e => length (fst e) = dims C) l -> bulk_load C l = Ok s ->
  exists H, holds (wider (Nat.max (mx C) (length l))) true 1 1 H s l.
Proof.
  intros Es F E. set (C2 := wider (Nat.max (mx C) (length l))). unfold bulk_load in E.
  destruct (stored0 C C2 eq_refl ltac:(cbn [mx C2 wider]; lia) 1 (or_introl (le_n 1)) l F) as (S1 & S2 & S3).
  assert (M2 : mx C <= mx C2) by (cbn [mx C2 wider]; lia).
  assert (Cap : forall l0 : list (nd V), mx C < length l0 <= length l -> Forall (fun s0 : list (nd V) => length s0 <= mx C2) (split_segs C (spl C (length l0)) (seq 0 (dims C)) [l0])).
  { intros l0 Hl0. apply split_segs_short; auto.
    - apply Es, Hl0.
    - constructor; [|constructor]. intros ->. cbn [length] in Hl0. lia.
    - constructor; [|constructor]. cbn [mx C2 wider]. lia. }
  destruct (bulk_levels_ok C T C2 eq_refl M2 1 (or_introl (le_n 1)) Es (length l) Cap _ _ _ _ _ S1 (Nat.eq_le_incl _ _ S3) (or_introl eq_refl) E) as (H & Si & Pe & _).
  exists H. split; [exact Si|]. rewrite S2 in Pe. rewrite contents_entries. auto.
Qed.

Lemma bulk_flat l s : (forall (n : nat), mx C < n -> pieces_ok C n) ->
  Forall (fun e => length (fst e) = dims C) l -> bulk_load C l = Ok s -> exists H, holds C true 2 1 H s l /\ nok (root s) = true.
Proof.
  intros Hp F E. unfold bulk_load in E.
  assert (R2 : 2 <= 1 \/ 2 <= 2 /\ mx C = mx C) by (right; auto).
  destruct (stored0 C C eq_refl (le_n _) 2 R2 l F) as (S1 & S2 & S3).
  assert (Es : forall (n : nat), mx C < n -> 1 <= spl C n) by (intros n Hn; apply Hp; exact Hn).
  assert (Cap : forall l0 : list (nd V), mx C < length l0 <= length l -> Forall (fun s0 : list (nd V) => length s0 <= mx C) (split_segs C (spl C (length l0)) (seq 0 (dims C)) [l0])).
    { intros l0 Hl0. destruct (Hp (length l0) (proj1 Hl0)) as [P1 P2]. apply split_segs_capacity; auto.
      intros ->. cbn [length] in Hl0. lia. }
    destruct (bulk_levels_ok C T C eq_refl (le_n _) 2 R2 Es (length l) Cap _ _ _ _ _ S1 (Nat.eq_le_incl _ _ S3) (or_introl eq_refl) E) as (H & Si & Pe & Nk).
  exists H. split; [|exact Nk]. split; [exact Si|]. rewrite S2 in Pe. rewrite contents_entries. auto.
Qed.

Lemma bulk_ends l : (forall (n : nat), mx C < n <= length l -> spl C n <= mx C \/ 1 <= dims C /\ reach (spl C n) (mn C) (dims C - 1) <= n) -> (forall (n : nat), mx C < n -> 1 <= spl C n) ->
  Forall (fun e => length (fst e) = dims C) l -> exists s : st V, bulk_load C l = Ok s.
Proof.
  intros Hp Es F. set (C2 := wider (Nat.max (mx C) (length l))). unfold bulk_load.
  destruct (stored0 C C2 eq_refl ltac:(cbn [mx C2 wider]; lia) 1 (or_introl (le_n 1)) l F) as (S1 & S2 & S3).
  assert (M2 : mx C <= mx C2) by (cbn [mx C2 wider]; lia).
  assert (Cap : forall l0 : list (nd V), mx C < length l0 <= length l -> Forall (fun s0 : list (nd V) => length s0 <= mx C2) (split_segs C (spl C (length l0)) (seq 0 (dims C)) [l0])).
  { intros l0 Hl0. apply split_segs_short; auto.
    - apply Es, Hl0.
    - constructor; [|constructor]. intros ->. cbn [length] in Hl0. lia.
    - constructor; [|constructor]. cbn [mx C2 wider]. lia. }
  apply (bulk_levels_ends C T C2 eq_refl M2 1 (or_introl (le_n 1)) Es (length l) Cap); [intros n Hn; apply Hp, Hn|exact S1|rewrite S3; lia|rewrite S3; lia].
Qed.

(** *** Trees without their addresses *)
Fixpoint strip (n : nd V) : nd V :=
  match n with
  | NV _ _ b v => NV 0 None b v
  | ND _ _ lf b c _ ks => ND 0 None lf b c false (map strip ks)
  end.

Lemma strip_ext (f : nd V -> nd V) ks : Forall (fun k => strip (f k) = strip k) ks -> map strip (map f ks) = map strip ks.
Proof. intros H. rewrite map_map. apply map_ext_in. intros k Hk. rewrite Forall_forall in H. auto. Qed.

Lemma strip_set_par p n : strip (set_par p n) = strip n. Proof. destruct n; reflexivity. Qed.
Lemma strip_set_a a n : strip (set_a a n) = strip n. Proof. destruct n; reflexivity. Qed.
Lemma strip_set_ok a n : strip (set_ok a n) = strip n. Proof. destruct n; reflexivity. Qed.

Lemma strip_reset_kids n : strip (reset_kids n) = strip n.
Proof.
  induction n as [a p b v|a p lf b c ok ks IH] using nd_ind2; [reflexivity|].
  cbn [reset_kids]. destruct ok; [reflexivity|]. cbn [strip]. f_equal. apply strip_ext.
  eapply Forall_impl; [|exact IH]. cbn beta. intros k Hk. now rewrite strip_set_par.
Qed.
Lemma strip_reset n : strip (reset n) = strip n.
Proof. unfold reset. now rewrite strip_reset_kids, strip_set_ok. Qed.
Lemma strip_clone off n : strip (clone off n) = strip n.
Proof.
  induction n as [a p b v|a p lf b c ok ks IH] using nd_ind2; [reflexivity|]. cbn [clone strip]. f_equal. now apply strip_ext.
Qed.

Lemma flat_strip {A} (f : nd V -> list A) ks : Forall (fun k => f k = f (strip k)) ks -> flat_map f ks = flat_map f (map strip ks).
Proof. induction 1 as [|k ks Hk H IH]; [reflexivity|]. cbn [flat_map map]. now rewrite Hk, IH. Qed.

Lemma strip_search dc vc : forall n d, shown (search_descend dc vc d n) = shown (search_descend dc vc d (strip n)).
Proof.
  induction n as [a p b v|a p lf b c ok ks IH] using nd_ind2; intros d; cbn [search_descend strip].
  - destruct (vc b); reflexivity.
  - destruct (dc b); [|reflexivity]. unfold shown in *.
    assert (G : forall l : list (nd V), map (fun x : nat * nat * box * V => match x with (_, d0, b0, v0) => (d0, b0, v0) end) (flat_map (search_descend dc vc (S d)) l) =
      flat_map (fun k => map (fun x : nat * nat * box * V => match x with (_, d0, b0, v0) => (d0, b0, v0) end) (search_descend dc vc (S d) k)) l).
    { induction l as [|k l IHl]; [reflexivity|]. cbn [flat_map]. now rewrite map_app, IHl. }
    rewrite !G. apply flat_strip. eapply Forall_impl; [|exact IH]. auto.
Qed.
Lemma strip_nvals n : nvals n = nvals (strip n).
Proof.
  induction n as [a p b v|a p lf b c ok ks IH] using nd_ind2; [reflexivity|]. cbn [nvals strip].
  induction IH as [|k ks Hk H IHk]; [reflexivity|]. cbn [map fold_right] in *. cbn. rewrite <- Hk. f_equal. exact IHk.
Qed.
Lemma strip_walk n : walk_from n = walk_from (strip n).
Proof.
  induction n as [a p b v|a p lf b c ok ks IH] using nd_ind2; [reflexivity|]. cbn [walk_from strip]. f_equal.
  now apply flat_strip.
Qed.
Lemma strip_contents n : contents n = contents (strip n).
Proof.
  induction n as [a p b v|a p lf b c ok ks IH] using nd_ind2; [reflexivity|]. cbn [contents strip]. now apply flat_strip.
Qed.

Lemma strip_same s s' : strip (root s) = strip (root s') -> looks_same s s' /\ contents (root s) = contents (root s').
Proof.
  intros E. split; [|now rewrite strip_contents, E, <- strip_contents].
  unfold looks_same, search_overlap, search_match, search_pt_overlap, search_pt_match, size, empty, extent, walk.
  assert (Eb : nbox (root s) = nbox (root s')) by (destruct (root s), (root s'); cbn in E |- *; congruence).
  assert (Ec : ncnt (root s) = ncnt (root s')) by (destruct (root s), (root s'); cbn in E |- *; congruence).
  repeat split; intros; rewrite ?Eb, ?Ec; try reflexivity.
  1-4: rewrite (strip_search _ _ (root s)), (strip_search _ _ (root s')), E; reflexivity.
  - now rewrite strip_nvals, E, <- strip_nvals.
  - now rewrite strip_walk, E, <- strip_walk.
Qed.

Lemma copy_strip s : strip (root (copy s)) = strip (root s).
Proof. unfold copy. cbn [root]. now rewrite strip_reset, strip_clone. Qed.
Lemma rehome_strip s : strip (root (rehome s)) = strip (root s).
Proof. unfold rehome. cbn [root]. now rewrite strip_reset, strip_set_a. Qed.

End O.
