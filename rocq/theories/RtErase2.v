(** Removal of a value whose leaf is dissolved. *)

From Coq Require Import List ZArith Lia Bool Permutation.
From Verif Require Import Base RtModel RtBox RtPerm RtTree RtShape RtSplit RtInsert RtErase.
Import ListNotations.
Open Scope nat_scope.

Section E.
Context {V : Type}.
Variable C : cfg.
Hypothesis T : traits_ok C.
Variable tg : bool.
Variable kl : nat.
Hypothesis kl1 : 1 <= kl.
Hypothesis klm : kl <= mn C.
Implicit Types (n k t : nd V) (ks l : list (nd V)) (c : list (fr V)).

Notation shape := (shape C tg kl).
Notation W1 := (le_n 1).
Notation W2 := (le_S 1 1 (le_n 1)).
Notation kid h := (shape h kl (mx C)).

(** The weaker of two bounds on the children of the root *)
Lemma rootlo_mono r1 r2 H : r1 <= r2 -> rootlo r1 H <= rootlo r2 H.
Proof. unfold rootlo. destruct (Nat.eqb H 1); lia. Qed.

Lemma sinv_weak r1 r2 H (s : st V) : r1 <= r2 -> sinv C tg r2 kl H s -> sinv C tg r1 kl H s.
Proof.
  intros Hr [[Hh Hs] L]. constructor; [|exact L]. split; [exact Hh|]. eapply (shape_weaken C tg 1 W1 W2 kl kl1 klm); [apply rootlo_mono; exact Hr|apply le_n|exact Hh|exact Hs].
Qed.

(** A root that is not a leaf and has at least two children *)
Lemma sinv_two r H (s : st V) : sinv C tg 1 kl H s -> r <= 2 -> ncnt (root s) <> 1 -> 2 <= H -> sinv C tg r kl H s.
Proof.
  intros [[Hh Hs] L] Hr Hc H2. constructor; [|exact L]. split; [exact Hh|].
  destruct H as [|h]; [lia|]. destruct (root s) as [|a p lf b cnt ok ks]; [contradiction|]. cbn [RtShape.shape ncnt] in *.
  destruct Hs as (E1 & E2 & E3 & E4 & E5). split; [exact E1|]. split; [exact E2|]. split; [|split; [exact E4|exact E5]].
  unfold rootlo in *. destruct (Nat.eqb_spec (S h) 1); lia.
Qed.

(** *** Reinsertion of the values of a dissolved leaf *)
Lemma reinsert_vals_ok l : forall s H N, Forall (kid 0) l -> sinv C tg 1 kl H s ->
  length (entries (root s)) + length l <= N -> (nok (root s) = true -> ncnt (root s) + length l <= mx C) ->
  (reinsert_vals C l s = Throw E_general /\ ~ bounded (V := V) C tg 1 kl N) \/
  exists s' H', reinsert_vals C l s = Ok s' /\ grow C tg 1 kl (length l) H s H' s' /\
    Permutation (entries (root s')) (flat_map entries l ++ entries (root s)).
Proof.
  induction l as [|k l IH]; intros s H N Hl Si HN Hr.
  - right. exists s, H. split; [reflexivity|]. split; [apply grow_refl; auto|]. reflexivity.
  - apply Forall_cons_iff in Hl. destruct Hl as [Hk Hl]. destruct (kid0_value C tg kl _ _ _ Hk) as (a & p & b & v & -> & Lb).
    cbn [reinsert_vals length] in *.
    destruct (insert_ns_ok C T tg 1 (le_n 1) (le_S _ _ (le_n 1)) kl kl1 klm 0 s b v None H N 1 Si Lb I ltac:(lia) (or_intror (conj eq_refl I)))
      as [[-> B]|(s' & rd' & H' & -> & G & P & _ & _)].
    + intros E. specialize (Hr E). lia.
    + left. auto.
    + cbn [bind]. assert (Lp : length (entries (root s')) = S (length (entries (root s)))) by (rewrite (Permutation_length P); reflexivity).
      destruct (IH s' H' N Hl) as [[-> B]|(s2 & H2 & -> & G2 & P2)].
      * apply G.
      * lia.
      * intros E. destruct G as (_ & _ & _ & G4 & G5). destruct (nok (root s)) eqn:En; [|rewrite G4 in E; congruence].
        destruct (G5 eq_refl) as (_ & _ & G6). specialize (Hr eq_refl). lia.
      * left. auto.
      * right. exists s2, H2. split; [reflexivity|]. split.
        -- change (S (length l)) with (1 + length l). eapply (grow_trans C tg 1 W1 W2 kl kl1 klm); eauto.
        -- rewrite P2, P. cbn [flat_map entries]. perm.
Qed.

(** *** The only child of the root becomes the root *)
Lemma collapse_ok (s : st V) H rl' : sinv C tg 1 kl H s -> 2 <= H -> rl' <= 2 -> rl' <= kl ->
  exists (s' : st V) H', collapse s = Ok s' /\ sinv C tg rl' kl H' s' /\ entries (root s') = entries (root s) /\
    (s' = s \/ nok (root s') = true) /\ nxt s' = nxt s.
Proof.
  intros Si H2 R2 Rk. unfold collapse. destruct (Nat.eqb_spec (ncnt (root s)) 1) as [E1|E1].
  2:{ exists s, H. split; [reflexivity|]. split; [apply sinv_two; auto|]. auto. }
  destruct Si as [[Hh Hs] [Lp Lk Ln Lb]]. destruct H as [|[|h]]; [lia|lia|].
  destruct (root s) as [|a p lf b cnt ok ks] eqn:Er; [contradiction|]. cbn [RtShape.shape ncnt npar] in *.
  destruct Hs as (-> & -> & Hc & F & K). destruct ks as [|k [|k2 ks]]; cbn [length] in *; try lia.
  apply Forall_cons_iff in K. destruct K as [K _].
  apply lk_dir in Lk. apply Forall_cons_iff in Lk. destruct Lk as [[Lk1 Lk2] _].
  cbn [rev nkids app]. exists (ST (reset (set_par None (set_a a k))) (nxt s)), (S h).
  split; [reflexivity|]. cbn [root nxt na].
  destruct k as [|ka kp klf kb kc kok kks]; [contradiction|].
  split; [|split; [|split; [|reflexivity]]].
  - constructor; cbn [root nxt].
    + split; [lia|]. unfold reset. apply shape_reset_kids. apply shape_set_ok, shape_set_par, shape_set_a.
      eapply (shape_weaken C tg 1 W1 W2 kl kl1 klm); [|apply le_n|lia|exact K]. unfold rootlo. destruct (Nat.eqb (S h) 1); lia.
    + unfold reset. cbn [set_a set_par set_ok]. constructor.
      * rewrite npar_reset_kids. reflexivity.
      * apply lk_reset_kids. apply lkr_set_false in Lk2. exact Lk2.
      * rewrite addrs_reset_kids. cbn [addrs flat_map app] in *. apply NoDup_cons_iff in Ln. destruct Ln as [L1 L2].
        rewrite app_nil_r in *. apply NoDup_cons_iff in L2. destruct L2 as [L2 L3]. constructor; [|exact L3].
        intros Hi. apply L1. now right.
      * rewrite addrs_reset_kids. cbn [addrs flat_map app] in *. rewrite app_nil_r in Lb. inversion Lb as [|? ? B1 B2]; subst.
        inversion B2; subst. constructor; auto.
  - unfold reset. rewrite entries_reset_kids. cbn [entries set_a set_par set_ok flat_map]. now rewrite app_nil_r.
  - right. reflexivity.
Qed.

(** *** The leaf is dissolved; its parent is the root or keeps enough leaves *)
Lemma erase_dissolve_ok rl s H a d p bb v f g c : 1 <= rl -> rl <= 2 -> rl <= kl ->
  sinv C tg 1 kl H s -> get a (root s) = Some (NV a p bb v) ->
  root s = plug (g :: c) (plug1 f (NV a p bb v)) -> fsize f <= mn C ->
  (c = [] /\ 2 <= fsize g /\ fsize g + mn C <= mx C + 2 \/
   c <> [] /\ tg = false /\ mn C < fsize g /\ (nok (root s) = true -> ncnt (root s) + mn C <= S (mx C))) ->
  (erase C a d s = Throw E_general /\ ~ bounded (V := V) C tg 1 kl (length (entries (root s)))) \/
  exists s' H', erase C a d s = Ok s' /\ sinv C tg rl kl H' s' /\
    Permutation (entries (root s)) ((bb, v) :: entries (root s')).
Proof.
  intros Hr1 Hr2 Hrk Si Hg Et Hf Hcase. pose proof Si as [[Hh Hs] [Lp Lk Ln Lb]].
  assert (Hc0 : exists h lo hi, H = h + length (f :: g :: c) /\ shape h lo hi (NV a p bb v)).
  { eapply (shape_ctx C tg 1 W1 W2 kl kl1 klm (f :: g :: c)). cbn [plug] in *. rewrite <- Et. exact Hs. }
  destruct Hc0 as (h & lo & hi & EH & Hn). destruct h as [|h]; [|contradiction]. cbn [length Nat.add] in EH. cbn [RtShape.shape] in Hn.
  rewrite Et in Hs, Lp, Lk, Ln, Lb. rewrite EH in Hs. cbn [plug] in *.
  replace (S (S (length c))) with (2 + length c) in Hs by lia.
  destruct (shape_unplug C tg 1 (le_n 1) (le_S _ _ (le_n 1)) kl kl1 klm c 2 _ ltac:(lia) Hs) as [Hc Hs1].
  unfold plug1 in Hs1, Hc. cbn [RtShape.shape nbox Nat.eqb] in Hs1, Hc. destruct Hs1 as (S1 & S2 & S3 & S4 & S5).
  rewrite app_length in *. cbn [length] in *. rewrite map_app in S4. cbn [map nbox] in S4.
  apply Forall_app in S5. destruct S5 as [S5 S6]. apply Forall_cons_iff in S6. destruct S6 as [(Q1 & Q2 & Q3 & Q4 & Q5) S6].
  rewrite app_length in *. cbn [length] in *.
  apply Forall_app in Q5. destruct Q5 as [Q5 Q6]. apply Forall_cons_iff in Q6. destruct Q6 as [_ Q6].
  assert (Q7 : Forall (kid 0) (fl f ++ frt f)) by (apply Forall_app; auto).
  assert (S7 : Forall (kid 1) (fl g ++ frt g)) by (apply Forall_app; auto).
  destruct (lk_unplug c _ Lk Lp) as (Kc & Hp & Hlk). cbn [plug1 npar] in Hp. unfold plug1 in Hlk. apply lk_dir in Hlk.
  apply Forall_app in Hlk. destruct Hlk as [Hk1 Hk2]. apply Forall_cons_iff in Hk2. destruct Hk2 as [[Hpf Hlf] Hk2]. cbn [npar] in Hpf.
  apply lk_dir in Hlf. apply Forall_app in Hlf. destruct Hlf as [Hf1 Hf2]. apply Forall_cons_iff in Hf2. destruct Hf2 as [[Hpv _] Hf2]. cbn [npar] in Hpv.
  assert (Hlg : Forall (@lk V) (fl g ++ frt g)) by (apply Forall_app; split; (eapply Forall_impl; [|eassumption]); cbn; tauto).
  unfold erase. rewrite Hg. cbn [deref bind nbox npar]. rewrite Hpv. cbn [deref bind].
  assert (Eg : get (fa f) (root s) = Some (plug1 f (NV a p bb v))) by (rewrite Et; exact (get_plug (g :: c) (plug1 f (NV a p bb v)) Ln)).
  rewrite Eg. cbn [deref bind].
  destruct (erase_child_ok C 1 W1 W2 kl kl1 klm f (NV a p bb v) (nxt s) (nodup_left (g :: c) f _ Ln)) as (ks' & x' & Ee & Ek). cbn [na] in Ee. rewrite Ee. clear Ee.
  set (n' := ND (fa f) (fp f) (flf f) (fb f) (fc f - 1) (fok f) ks').
  assert (Eu : upd (fa f) n' (root s) = plug c (plug1 g n')) by (rewrite Et; exact (upd_plug (g :: c) (plug1 f (NV a p bb v)) n' Ln)).
  rewrite Eu. clear Eu. cbn [npar n']. rewrite Hpf. cbn [ncnt n'].
  destruct (Nat.leb_spec (mn C) (fc f - 1)) as [|Hlt]; [exfalso; pose proof (t_min C T); unfold fsize in Hf; lia|].
  destruct (erased_addrs C 1 W1 W2 kl kl1 klm (g :: c) f _ _ _ _ (fb f) (fc f - 1) (fok f) Ln Lb Ek) as (N1 & B1 & X1). fold n' in N1, B1.
  pose proof (erased_kid C tg kl _ _ _ _ 0 Ek Q7) as Q8. pose proof (erased_length _ _ _ _ Ek) as El. rewrite app_length in El.
  cbn [set_kids n' ncnt nkids]. fold n'.
  set (n2 := ND (fa f) (fp f) (flf f) (fb f) (fc f - 1) (fok f) []).
  assert (Eu : upd (fa f) n2 (plug c (plug1 g n')) = plug c (plug1 g n2)) by (exact (upd_plug (g :: c) n' n2 N1)).
  rewrite Eu. clear Eu.
  assert (A2 : exists m, Permutation (addrs (plug c (plug1 g n'))) (addrs (plug c (plug1 g n2)) ++ m)).
  { exists (flat_map addrs ks'). rewrite !addrs_plug, !addrs_plug1. unfold n', n2. cbn [addrs flat_map]. perm. }
  destruct A2 as (m2 & A2).
  cbn [plug] in N1, B1.
  assert (N2 : NoDup (addrs (plug c (plug1 g n2)))) by (apply (Permutation_NoDup A2) in N1; eapply nodup_app_l; eauto).
  assert (B2 : Forall (fun z => z < x') (addrs (plug c (plug1 g n2)))) by (apply (Permutation_Forall A2) in B1; apply Forall_app in B1; tauto).
  assert (Eg2 : get (fa g) (plug c (plug1 g n2)) = Some (plug1 g n2)) by exact (get_plug c (plug1 g n2) N2).
  rewrite Eg2. cbn [deref bind].
  destruct (erase_child_ok C 1 W1 W2 kl kl1 klm g n2 x' (nodup_left c g n2 N2)) as (ks2 & x2 & Ee2 & Ek2). cbn [na n2] in Ee2. fold n2 in Ee2. rewrite Ee2. clear Ee2.
  destruct (erased_addrs C 1 W1 W2 kl kl1 klm c g _ _ _ _ (fb g) (fc g - 1) false N2 B2 Ek2) as (N3 & B3 & X2).
  pose proof (erased_kid C tg kl _ _ _ _ 1 Ek2 S7) as S8. pose proof (erased_boxes _ _ _ _ Ek2) as Eb2. pose proof (erased_length _ _ _ _ Ek2) as El2.
  rewrite map_app in Eb2. rewrite app_length in El2.
  unfold reset. cbn [set_ok].
  set (G0 := ND (fa g) (fp g) (flf g) (fb g) (fc g - 1) false ks2).
  assert (LG : lk (reset_kids G0)).
  { apply lk_reset_kids. apply lkr_false. eapply erased_lkr; eauto. }
  assert (EG : pack C (reset_kids G0) = (set_box (hull (dims C) (map nbox (nkids (reset_kids G0)))) (reset_kids G0),
       negb (box_eqb (hull (dims C) (map nbox (nkids (reset_kids G0)))) (fb g)))) by reflexivity.
  rewrite EG. clear EG. cbn [fst].
  assert (EB : map nbox (nkids (reset_kids G0)) = map nbox (fl g) ++ map nbox (frt g)).
  { unfold G0. cbn [reset_kids nkids]. rewrite <- Eb2, map_map. apply map_ext. intros k. now rewrite nbox_set_par, nbox_reset_kids. }
  rewrite EB. set (nb := hull (dims C) (map nbox (fl g) ++ map nbox (frt g))).
  set (G1 := set_box nb (reset_kids G0)).
  assert (Eu : upd (fa g) G1 (plug c (plug1 g n2)) = plug c G1) by (exact (upd_plug c (plug1 g n2) G1 N2)).
  rewrite Eu. clear Eu.
  assert (AG : addrs G1 = addrs G0) by (unfold G1; rewrite addrs_set_box; apply addrs_reset_kids).
  assert (N4 : NoDup (addrs (plug c G1))) by (eapply Permutation_NoDup; [|exact N3]; rewrite !addrs_plug, AG; reflexivity).
  assert (B4 : Forall (fun z => z < x2) (addrs (plug c G1))) by (eapply Permutation_Forall; [|exact B3]; rewrite !addrs_plug, AG; reflexivity).
  assert (Lg : na G1 = fa g /\ npar G1 = fp g /\ ncnt G1 = fc g - 1 /\ nok G1 = true) by (unfold G1, G0; cbn; auto).
  destruct Lg as (G1a & G1p & G1c & G1k).
  assert (Fnb : fit (dims C) tg nb (map nbox (fl g) ++ map nbox (frt g))).
  { unfold nb. apply fit_hull. rewrite <- map_app. eapply shape_boxes. exact S7. }
  assert (SG : shape 2 (fc g - 1) (mx C) G1).
  { unfold G1. assert (S9 : shape 2 (fc g - 1) (mx C) (reset_kids (ND (fa g) (fp g) (flf g) nb (fc g - 1) false ks2))).
    { apply shape_reset_kids. cbn [RtShape.shape Nat.eqb]. split; [exact S1|]. split; [lia|]. split; [lia|]. split; [rewrite Eb2; exact Fnb|exact S8]. }
    exact S9. }
  assert (Ddis : forall fuel od, dissolve C (S fuel) (ST (plug c G1) x2) (fa g) od [] = Ok (ST (plug c G1) x2, [])).
  { intros fuel od. cbn [dissolve root].
    assert (Eg3 : get (fa g) (plug c G1) = Some G1) by (rewrite <- G1a; exact (get_plug c G1 N4)).
    rewrite Eg3. cbn [deref bind]. rewrite G1p, Hp, G1c. destruct c as [|g0 c0]; [reflexivity|]. cbn [hpar].
    destruct Hcase as [[E _]|[_ [_ [Hgm _]]]]; [discriminate|]. unfold fsize in Hgm.
    destruct (Nat.ltb_spec (fc g - 1) (mn C)); [lia|reflexivity]. }
  assert (Hfu : exists fuel, nnodes (plug c (plug1 g n2)) = S fuel).
  { pose proof (nnodes_plug c (plug1 g n2)). exists (nnodes (plug c (plug1 g n2)) - 1). lia. }
  destruct Hfu as (fuel & Hfu).
  match goal with |- context [dissolve C ?z _ _ _ _] => replace z with (S fuel) end.
  rewrite Ddis. cbn [bind reinsert_dirs].
  assert (Si1 : sinv C tg 1 kl (2 + length c) (ST (plug c G1) x2)).
  { constructor; cbn [root nxt].
    - apply (shape_plug C tg 1 (le_n 1) (le_S _ _ (le_n 1)) kl kl1 klm c 2); [lia| |].
      + unfold G1. cbn [nbox]. destruct Hcase as [[-> _]|[_ [Etg [Hgm _]]]]; [exact I|].
        destruct c as [|g0 c0]; [exact I|]. cbn [RtShape.cshape] in *. destruct Hc as (C1 & C2 & C3 & C4 & C5 & C6).
        split; [exact C1|]. split; [exact C2|]. split; [exact C3|]. split; [|split; [exact C5|exact C6]].
        rewrite Etg in *. destruct C4 as [C4 C7]. split; [exact C4|]. apply Forall_app in C7. destruct C7 as [C7 C8].
        apply Forall_cons_iff in C8. destruct C8 as [C8 C9]. apply Forall_app. split; [exact C7|]. constructor; [|exact C9].
        assert (En : nbox (set_box nb (reset_kids G0)) = nb) by reflexivity. rewrite En.
        eapply inside_trans; [|exact C8]. unfold nb. apply hull_least.
        * rewrite <- map_app. intros E. apply map_eq_nil in E. apply (f_equal (@length _)) in E. rewrite app_length in E. cbn [length] in E.
          unfold fsize in Hgm. pose proof (t_min C T). lia.
        * destruct S4 as [_ S4]. apply Forall_app in S4. destruct S4 as [S4 S9]. apply Forall_cons_iff in S9. apply Forall_app. tauto.
      + eapply (shape_weaken C tg 1 W1 W2 kl kl1 klm); [|apply le_n|lia|exact SG]. unfold lowc, rootlo. destruct c as [|g0 c0].
        * cbn [Nat.eqb]. destruct Hcase as [[_ [H2 _]]|[E0 _]]; [|congruence]. unfold fsize in H2; lia.
        * destruct Hcase as [[E0 _]|[_ [_ [Hgm _]]]]; [discriminate|]. unfold fsize in Hgm. lia.
    - destruct (lk_plug c G1 Kc) as [L1 L2]; [congruence|unfold G1; apply lk_set_box; exact LG|]. constructor; auto. }
  assert (Ent : Permutation (entries (root s)) ((bb, v) :: flat_map entries ks' ++ entries (plug c G1))).
  { rewrite Et, !entries_plug. unfold G1. assert (E0 : entries (set_box nb (reset_kids G0)) = entries G0) by (rewrite <- (entries_reset_kids G0); reflexivity).
    rewrite E0. unfold G0, plug1. cbn [entries]. rewrite (erased_entries _ _ _ _ Ek), (erased_entries _ _ _ _ Ek2).
    rewrite !flat_map_app. cbn [flat_map entries]. rewrite !flat_map_app. cbn [flat_map entries]. perm. }
  assert (Rv : length (rev ks') = length ks') by apply rev_length.
  assert (Lks : length ks' <= mn C - 1) by (unfold fsize in Hf; lia).
  destruct (reinsert_vals_ok (rev ks') (ST (plug c G1) x2) (2 + length c) (length (entries (root s)))) as [[-> B]|(s2 & H2 & -> & Gr & P2)].
  - apply Forall_rev. exact Q8.
  - exact Si1.
  - cbn [root]. rewrite (Permutation_length Ent). cbn [length]. rewrite app_length, Rv.
    assert (E : length ks' = length (flat_map entries ks')).
    { clear - Q8. induction ks' as [|k ks' IH]; [reflexivity|]. apply Forall_cons_iff in Q8. destruct Q8 as [Hk Q8].
      destruct (kid0_value C tg kl _ _ _ Hk) as (? & ? & ? & ? & -> & _). cbn [flat_map entries app length]. f_equal. auto. }
    lia.
  - cbn [root]. rewrite Rv. intros En. pose proof (t_min C T). pose proof (t_max C T). destruct c as [|g0 c0].
    + cbn [plug]. rewrite G1c. destruct Hcase as [[_ [H2 H3]]|[E0 _]]; [|congruence]. unfold fsize in *. lia.
    + destruct (plug_root (g0 :: c0) G1 (plug1 g (plug1 f (NV a p bb v)))) as (R1 & _ & R3); [discriminate|].
      rewrite R3. rewrite R1, <- Et in En. destruct Hcase as [[E0 _]|[_ [_ [_ H3]]]]; [discriminate|]. specialize (H3 En). rewrite Et in H3. lia.
  - left. cbn [bind]. auto.
  - cbn [bind]. destruct Gr as (Gr1 & _ & Gr3 & _). destruct (collapse_ok s2 H2 rl Gr1 ltac:(lia) Hr2 Hrk) as (s3 & H3 & -> & Si3 & E3 & _).
    right. exists s3, H3. split; [reflexivity|]. split; [exact Si3|]. rewrite Ent, E3. rewrite P2. cbn [root].
    apply perm_skip. apply Permutation_app_tail. apply Permutation_flat_map. apply Permutation_rev.
Qed.

End E.
