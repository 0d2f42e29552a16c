(** split_node on a linked tree with one overfull directory. *)

From Coq Require Import List ZArith Lia Bool Permutation.
From Verif Require Import Base RtModel RtBox RtPerm RtTree RtShape.
Import ListNotations.
Open Scope nat_scope.

Section S.
Context {V : Type}.
Variable C : cfg.
Hypothesis T : traits_ok C.
Variable tg : bool.
Variable rl : nat.
Hypothesis rl1 : 1 <= rl.
Hypothesis rl2 : rl <= 2.
Variable kl : nat.
Hypothesis kl1 : 1 <= kl.
Hypothesis klm : kl <= mn C.
Implicit Types (n k t : nd V) (ks l : list (nd V)) (c : list (fr V)).

Notation lenD := (fun b : box => length b = dims C).
Notation shape := (shape C tg kl).
Notation cshape := (cshape C tg rl kl).
Notation tshape := (tshape C tg rl kl).
Notation kid h := (shape h kl (mx C)).

(** Tree and allocator *)
Record linv (t : nd V) (x : addr) : Prop := {
  l_par : npar t = None;
  l_lk : lk t;
  l_nodup : NoDup (addrs t);
  l_bound : Forall (fun z => z < x) (addrs t) }.

Lemma plug_root c n n' : c <> [] ->
  nok (plug c n) = nok (plug c n') /\ na (plug c n) = na (plug c n') /\ ncnt (plug c n) = ncnt (plug c n').
Proof.
  revert n n'. induction c as [|f c IH]; intros n n' N; [congruence|]. cbn [plug].
  destruct c as [|f' c]; [repeat split; reflexivity|]. apply IH. discriminate.
Qed.

Lemma lkr_q k : lkr (set_ok false (core k)) <-> lkr (set_ok false k).
Proof. destruct k; reflexivity. Qed.

Lemma set_ok_readdr x l : Forall (fun k : nd V => set_ok false k = k) l ->
  Forall (fun k => set_ok false k = k) (readdr x l).
Proof.
  revert x. induction l as [|k l IH]; intros x H; cbn [readdr]; [constructor|].
  inversion H; subst. constructor; [|auto]. destruct k as [|a p lf b c ok ks]; [reflexivity|].
  cbn [set_ok set_a] in *. congruence.
Qed.

Lemma lkr_list l : Forall (fun k : nd V => set_ok false k = k) l ->
  Forall (fun k => lkr (set_ok false k)) l -> Forall lkr l.
Proof.
  intros H1 H2. rewrite Forall_forall in *. intros k Hk. specialize (H1 k Hk). specialize (H2 k Hk).
  now rewrite H1 in H2.
Qed.

(** The two groups of a split *)
Lemma groups h ks x : length ks = S (mx C) -> Forall (kid h) ks -> Forall (@lk V) ks ->
  let ks' := sort_split C ks in
  let k := mn C - 1 + pick_dist C ks' in
  let k1 := firstn k ks' in
  let k2 := readdr x (skipn k ks') in
  length k1 = k /\ mn C <= k <= mx C /\ mn C <= length k2 <= mx C /\
  Forall (kid h) k1 /\ Forall (kid h) k2 /\ Forall lkr k1 /\ Forall lkr k2 /\
  Permutation (flat_map entries (k1 ++ k2)) (flat_map entries ks) /\
  Permutation (flat_map kaddrs (k1 ++ k2)) (flat_map kaddrs ks) /\
  map na k1 ++ map na (skipn k ks') = map na ks /\ map na k2 = seq x (length k2).
Proof.
  intros L Hk Hl ks' k k1 k2.
  destruct (sort_split_spec C T rl rl1 rl2 kl kl1 klm ks) as (S1 & S2 & S3). fold ks' in S1, S2, S3.
  pose proof (pick_dist_bounds C T rl rl1 rl2 kl kl1 klm ks') as Pd. pose proof (t_min C T) as Tm. pose proof (t_max C T) as Tx.
  unfold max_dist in Pd.
  assert (L' : length ks' = S (mx C)) by (rewrite <- L, <- (map_length na ks'), S1; apply map_length).
  assert (Hkk : mn C <= k /\ k + mn C <= S (mx C)) by (unfold k; lia).
  assert (L1 : length k1 = k) by (unfold k1; rewrite firstn_length; lia).
  assert (L2 : length k2 = S (mx C) - k) by (unfold k2; rewrite readdr_length, skipn_length; lia).
  assert (E12 : map core (k1 ++ k2) = map core ks').
  { unfold k1, k2. rewrite map_app, core_readdr, <- map_app. now rewrite firstn_skipn. }
  assert (P12 : Permutation (map core (k1 ++ k2)) (map core ks)) by (rewrite E12; exact S2).
  assert (Hs : Forall (kid h) (k1 ++ k2)) by (eapply core_forall; [intros; apply shape_core|exact P12|exact Hk]).
  assert (Hr : Forall (fun k => lkr (set_ok false k)) (k1 ++ k2)).
  { eapply core_forall; [intros; apply lkr_q|exact P12|]. eapply Forall_impl; [|exact Hl].
    intros q Hq. now apply lkr_set_false. }
  assert (Ho : Forall (fun k => set_ok false k = k) (k1 ++ k2)).
  { apply Forall_app. split; [now apply Forall_firstn|]. apply set_ok_readdr. now apply Forall_skipn. }
  pose proof (lkr_list _ Ho Hr) as Hlk.
  apply Forall_app in Hs. destruct Hs as [Hs1 Hs2]. apply Forall_app in Hlk. destruct Hlk as [Hl1 Hl2].
  split; [exact L1|]. split; [lia|]. split; [lia|].
  split; [exact Hs1|]. split; [exact Hs2|]. split; [exact Hl1|]. split; [exact Hl2|].
  split; [apply core_flat; [apply core_entries|exact P12]|].
  split; [apply core_flat; [apply core_kaddrs|exact P12]|].
  split; [|unfold k2; rewrite na_readdr, readdr_length; reflexivity].
  rewrite <- map_app. unfold k1. rewrite firstn_skipn. exact S1.
Qed.

Definition split_post (c : list (fr V)) (t : nd V) (H : nat) (s' : st V) : Prop :=
  exists H', tshape H' (root s') /\ npar (root s') = None /\
    NoDup (addrs (root s')) /\ Forall (fun z => z < nxt s') (addrs (root s')) /\
    Permutation (entries (root s')) (entries t) /\ na (root s') = na t /\
    ((c <> [] /\ H' = H /\ lk (root s') /\ nok (root s') = nok t /\ ncnt (root s') <= S (ncnt t)) \/
     (H' = S H /\ nok (root s') = false /\ (nok t = false -> lk (root s')) /\ mx C <= ncnt t)).

Lemma split_ok c : forall fuel h a p lf b ok ks x b0,
  length c < fuel -> lf = Nat.eqb h 0 -> length ks = S (mx C) -> Forall (kid h) ks ->
  cshape (S h) b0 c -> clk c -> p = hpar c ->
  lk (ND a p lf b (S (mx C)) ok ks) ->
  NoDup (addrs (plug c (ND a p lf b (S (mx C)) ok ks))) ->
  Forall (fun z => z < x) (addrs (plug c (ND a p lf b (S (mx C)) ok ks))) ->
  exists s', split_node C fuel (ST (plug c (ND a p lf b (S (mx C)) ok ks)) x) a = Ok s' /\
    split_post c (plug c (ND a p lf b (S (mx C)) ok ks)) (S h + length c) s'.
Proof.
  induction c as [|f c IH]; intros fuel h a p lf b ok ks x b0 Hf Hlf L Hk Hc Kc Hp Hlk N B;
    (destruct fuel as [|fuel]; [cbn [length] in Hf; lia|]); cbn [split_node root nxt].
  - (* the root *)
    cbn [plug] in *. cbn [hpar] in Hp. subst p.
    pose proof (get_self (ND a None lf b (S (mx C)) ok ks)) as Eg. cbn [na] in Eg.
    rewrite Eg. clear Eg. cbn [deref bind].
    assert (Hl : Forall (@lk V) ks).
    { apply lk_dir in Hlk. eapply Forall_impl; [|exact Hlk]. cbn. tauto. }
    pose proof (groups h ks x L Hk Hl) as G. cbn zeta in G.
    set (ks' := sort_split C ks) in *. set (k := mn C - 1 + pick_dist C ks') in *.
    set (k2 := readdr x (skipn k ks')) in *. set (k1 := firstn k ks') in *.
    set (gone := map na (skipn k ks')) in *.
    destruct G as (L1 & Lk & L2 & Hs1 & Hs2 & Hl1 & Hl2 & Pe & Pa & Pn & Pn2).
    cbn [na root]. rewrite Nat.eqb_refl. cbn [negb create_dir set_kids pack fst set_box nkids map].
    set (b1 := hull (dims C) (map nbox k1)). set (b2 := hull (dims C) (map nbox k2)).
    cbn [set_a set_par nbox map].
    set (x2 := x + length k2) in *.
    set (g1 := ND (S x2) (Some a) lf b1 k ok k1). set (g2 := ND x2 (Some a) lf b2 (length k2) false k2).
    eexists. split; [reflexivity|].
    assert (Sg1 : kid (S h) g1).
    { unfold g1. cbn [RtShape.shape]. split; [auto|]. split; [auto|]. split; [lia|]. split; [|auto].
      apply fit_hull. eapply shape_boxes; eauto. }
    assert (Sg2 : kid (S h) g2).
    { unfold g2. cbn [RtShape.shape]. split; [auto|]. split; [auto|]. split; [lia|]. split; [|auto].
      apply fit_hull. eapply shape_boxes; eauto. }
    assert (Sg : Forall (kid (S h)) [reset_kids g1; reset_kids g2]).
    { constructor; [now apply shape_reset_kids|]. constructor; [now apply shape_reset_kids|constructor]. }
    exists (S (S h)). cbn [root nxt]. split; [|split; [reflexivity|]].
    { split; [lia|]. cbn [RtShape.shape length]. split; [auto|]. split; [auto|].
      split; [unfold rootlo; cbn [Nat.eqb]; pose proof (t_max C T); pose proof (t_min C T); lia|].
      split; [|exact Sg]. cbn [map].
      rewrite !nbox_reset_kids. apply (fit_hull (dims C) tg [nbox g1; nbox g2]).
      constructor; [eapply shape_box; eauto|]. constructor; [eapply shape_box; eauto|constructor]. }
    assert (Fr : NoDup (addrs (ND a None false (hull (dims C) [b1; b2]) 2 false [reset_kids g1; reset_kids g2])) /\
      Forall (fun z => z < x + S (S (length k2)))
        (addrs (ND a None false (hull (dims C) [b1; b2]) 2 false [reset_kids g1; reset_kids g2]))).
    { apply (fresh_addrs (addrs (ND a None lf b (S (mx C)) ok ks))
         (a :: map na k1 ++ flat_map kaddrs ks) gone); [exact N|exact B| |].
      - cbn [addrs]. rewrite flat_addrs, <- Pn. perm.
      - cbn [addrs flat_map]. rewrite !addrs_reset_kids. unfold g1, g2. cbn [addrs].
        rewrite !flat_addrs, Pn2, !app_nil_r, <- Pa, flat_map_app. rewrite !seq_S.
        change (x + length k2) with x2. replace (x + S (length k2)) with (S x2) by (unfold x2; lia). perm. }
    destruct Fr as [F1 F2].
    split; [exact F1|]. split; [replace (S (S x2)) with (x + S (S (length k2))) by (unfold x2; lia); exact F2|].
    split; [|split; [reflexivity|]].
    { cbn [entries flat_map]. rewrite !entries_reset_kids, app_nil_r. unfold g1, g2. cbn [entries].
      rewrite <- flat_map_app. exact Pe. }
    right. rewrite Nat.add_0_r. split; [auto|]. split; [reflexivity|]. split; [|cbn [ncnt]; lia].
    cbn [nok]. intros ->. apply lk_dir. constructor; [|constructor; [|constructor]].
    + rewrite npar_reset_kids. split; [reflexivity|]. apply lk_reset_kids. unfold g1. now apply lkr_false.
    + rewrite npar_reset_kids. split; [reflexivity|]. apply lk_reset_kids. unfold g2. now apply lkr_false.
  - (* below the root *)
    cbn [hpar] in Hp. subst p.
    set (n := ND a (Some (fa f)) lf b (S (mx C)) ok ks) in *.
    pose proof (get_plug (f :: c) n N) as Eg. change (na n) with a in Eg. rewrite Eg. clear Eg. cbn [deref bind].
    unfold n at 1. cbv iota.
    assert (Hl : Forall (@lk V) ks).
    { apply lk_dir in Hlk. eapply Forall_impl; [|exact Hlk]. cbn. tauto. }
    pose proof (groups h ks x L Hk Hl) as G. cbn zeta in G.
    set (ks' := sort_split C ks) in *. set (k := mn C - 1 + pick_dist C ks') in *.
    set (k2 := readdr x (skipn k ks')) in *. set (k1 := firstn k ks') in *.
    set (gone := map na (skipn k ks')) in *.
    destruct G as (L1 & Lk & L2 & Hs1 & Hs2 & Hl1 & Hl2 & Pe & Pa & Pn & Pn2).
    cbn [create_dir set_kids pack fst set_box set_par].
    set (b1 := hull (dims C) (map nbox k1)). set (b2 := hull (dims C) (map nbox k2)).
    set (x2 := x + length k2) in *.
    set (n' := ND a (Some (fa f)) lf b1 k ok k1).
    set (g2 := ND x2 (Some (fa f)) lf b2 (length k2) false k2).
    pose proof (upd_plug (f :: c) n n' N) as Eu. change (na n) with a in Eu. rewrite Eu. clear Eu.
    cbn [cshape RtShape.cshape] in Hc. destruct Hc as (C1 & C2 & C3 & C4 & C5 & C6).
    cbn [clk] in Kc. destruct Kc as (K1 & K2 & K3).
    (* addresses *)
    assert (Aold : Permutation (addrs (plug (f :: c) n))
      ((a :: map na k1 ++ flat_map kaddrs ks ++ caddrs (f :: c)) ++ gone)).
    { rewrite addrs_plug. unfold n. cbn [addrs]. rewrite flat_addrs, <- Pn. perm. }
    assert (N1 : NoDup (addrs (plug (f :: c) n'))).
    { apply (fresh_addrs (addrs (plug (f :: c) n)) (a :: map na k1 ++ flat_map kaddrs k1 ++ caddrs (f :: c))
        (flat_map kaddrs k2 ++ gone) _ x 0); [exact N|exact B| |].
      - rewrite Aold. rewrite <- Pa, flat_map_app. perm.
      - rewrite addrs_plug. unfold n'. cbn [addrs]. rewrite flat_addrs. cbn [seq]. perm. }
    change (plug (f :: c) n') with (plug c (plug1 f n')) in *.
    pose proof (get_plug c (plug1 f n') N1) as Eg. change (na (plug1 f n')) with (fa f) in Eg.
    rewrite Eg. clear Eg. cbn [deref bind]. unfold plug1 at 1. cbv iota.
    set (nb := hull (dims C) (map nbox ((fl f ++ n' :: frt f) ++ [g2]))).
    assert (Ep : pack C (set_kids (S (fc f)) ((fl f ++ n' :: frt f) ++ [g2]) (plug1 f n')) =
      (ND (fa f) (fp f) (flf f) nb (S (fc f)) (fok f) ((fl f ++ n' :: frt f) ++ [g2]),
       negb (box_eqb nb (fb f)))) by reflexivity.
    unfold plug1 in Ep at 1. unfold plug1 at 1. rewrite Ep. clear Ep.
    set (f2 := FR (fa f) (fp f) (flf f) nb (S (fc f)) (fok f) (fl f) (frt f ++ [g2])).
    assert (E2 : ND (fa f) (fp f) (flf f) nb (S (fc f)) (fok f) ((fl f ++ n' :: frt f) ++ [g2]) = plug1 f2 n').
    { unfold plug1, f2. cbn [fa fp flf fb fc fok fl frt]. now rewrite <- app_assoc. }
    rewrite E2. clear E2.
    pose proof (upd_plug c (plug1 f n') (plug1 f2 n') N1) as Eu. change (na (plug1 f n')) with (fa f) in Eu.
    rewrite Eu. clear Eu.
    assert (A2 : forall m r, addrs m = addrs n' -> addrs r = addrs g2 ->
      Permutation (addrs (plug c (ND (fa f) (fp f) (flf f) nb (S (fc f)) (fok f) (fl f ++ m :: frt f ++ [r]))))
        ((a :: map na k1 ++ flat_map kaddrs ks ++ caddrs (f :: c)) ++ seq x (S (length k2)))).
    { intros m r Em Er. rewrite addrs_plug. cbn [addrs]. rewrite !flat_map_app. cbn [flat_map]. rewrite flat_map_app.
      cbn [flat_map]. rewrite Em, Er. unfold n', g2. cbn [addrs].
      rewrite !(flat_addrs k1), !(flat_addrs k2), Pn2, !app_nil_r, <- Pa, flat_map_app, seq_S.
      change (x + length k2) with x2. unfold caddrs. cbn [flat_map]. unfold faddrs. rewrite flat_map_app. perm. }
    assert (F2 : forall m r, addrs m = addrs n' -> addrs r = addrs g2 ->
      NoDup (addrs (plug c (ND (fa f) (fp f) (flf f) nb (S (fc f)) (fok f) (fl f ++ m :: frt f ++ [r])))) /\
      Forall (fun z => z < x + S (length k2))
       (addrs (plug c (ND (fa f) (fp f) (flf f) nb (S (fc f)) (fok f) (fl f ++ m :: frt f ++ [r]))))).
    { intros m r Em Er. eapply fresh_addrs; [exact N|exact B|exact Aold|]. now apply A2. }
    assert (N2 : NoDup (addrs (plug (f2 :: c) n'))) by (apply F2; reflexivity).
    change (plug c (plug1 f2 n')) with (plug (f2 :: c) n').
    pose proof (upd_plug (f2 :: c) n' (reset n') N2) as Eu. change (na n') with a in Eu. rewrite Eu. clear Eu.
    assert (Er : addrs (reset n') = addrs n') by (unfold reset; rewrite addrs_reset_kids; apply addrs_set_ok).
    set (f3 := FR (fa f) (fp f) (flf f) nb (S (fc f)) (fok f) (fl f ++ reset n' :: frt f) []).
    assert (E3 : plug (f2 :: c) (reset n') = plug (f3 :: c) g2).
    { cbn [plug]. unfold plug1, f2, f3. cbn [fa fp flf fb fc fok fl frt]. now rewrite <- app_assoc. }
    rewrite E3.
    assert (N3 : NoDup (addrs (plug (f3 :: c) g2))) by (rewrite <- E3; apply F2; [exact Er|reflexivity]).
    pose proof (upd_plug (f3 :: c) g2 (reset_kids g2) N3) as Eu. change (na g2) with x2 in Eu. rewrite Eu. clear Eu E3 N3.
    set (P := ND (fa f) (fp f) (flf f) nb (S (fc f)) (fok f) (fl f ++ reset n' :: frt f ++ [reset_kids g2])).
    assert (E4 : plug (f3 :: c) (reset_kids g2) = plug c P).
    { cbn [plug]. unfold plug1, f3, P. cbn [fa fp flf fb fc fok fl frt]. now rewrite <- app_assoc. }
    rewrite E4. clear E4.
    (* the new children of the parent *)
    destruct (F2 (reset n') (reset_kids g2) Er (addrs_reset_kids g2)) as [NP BP]. fold P in NP, BP.
    replace (x + S (length k2)) with (S x2) in BP by (unfold x2; lia).
    assert (Sn : kid (S h) n').
    { unfold n'. cbn [RtShape.shape]. split; [auto|]. split; [auto|]. split; [lia|]. split; [|auto].
      apply fit_hull. eapply shape_boxes; eauto. }
    assert (Sg : kid (S h) g2).
    { unfold g2. cbn [RtShape.shape]. split; [auto|]. split; [auto|]. split; [lia|]. split; [|auto].
      apply fit_hull. eapply shape_boxes; eauto. }
    assert (Srn : kid (S h) (reset n')) by (apply shape_reset_kids; now apply shape_set_ok).
    assert (Srg : kid (S h) (reset_kids g2)) by (now apply shape_reset_kids).
    assert (SP : Forall (kid (S h)) (fl f ++ reset n' :: frt f ++ [reset_kids g2])).
    { apply Forall_app in C5. destruct C5 as [C5 C7]. apply Forall_app. split; [auto|]. constructor; [auto|].
      apply Forall_app. split; auto. }
    assert (LP : lk P).
    { unfold P. apply lk_dir. apply Forall_app in K1. destruct K1 as [K4 K5]. apply Forall_app. split; [auto|].
      constructor; [split|apply Forall_app; split; [auto|constructor; [split|constructor]]].
      - unfold reset. rewrite npar_reset_kids. reflexivity.
      - apply lk_reset_kids. unfold n'. cbn [set_ok]. now apply lkr_false.
      - rewrite npar_reset_kids. reflexivity.
      - apply lk_reset_kids. unfold g2. now apply lkr_false. }
    assert (Eb : map nbox ((fl f ++ n' :: frt f) ++ [g2]) = map nbox (fl f ++ reset n' :: frt f ++ [reset_kids g2])).
    { rewrite <- app_assoc. cbn [app]. rewrite !map_app. cbn [map]. rewrite !map_app. cbn [map].
      unfold reset. rewrite !nbox_reset_kids, nbox_set_ok. reflexivity. }
    assert (FP : fit (dims C) tg nb (map nbox (fl f ++ reset n' :: frt f ++ [reset_kids g2]))).
    { unfold nb. rewrite Eb. apply fit_hull. eapply shape_boxes; eauto. }
    assert (LenP : length (fl f ++ reset n' :: frt f ++ [reset_kids g2]) = S (fc f)).
    { rewrite app_length. cbn [length]. rewrite app_length. cbn [length]. lia. }
    assert (EP : Permutation (entries (plug c P)) (entries (plug (f :: c) n))).
    { rewrite !entries_plug. cbn [centries flat_map]. fold (centries c). unfold P, n. cbn [entries].
      rewrite !flat_map_app. cbn [flat_map]. rewrite flat_map_app. cbn [flat_map]. unfold reset.
      rewrite !entries_reset_kids, entries_set_ok, <- Pe. unfold n', g2. cbn [entries].
      rewrite flat_map_app, app_nil_r. perm. }
    assert (RP : nok (plug c P) = nok (plug (f :: c) n) /\ na (plug c P) = na (plug (f :: c) n) /\
      (c <> [] -> ncnt (plug c P) = ncnt (plug (f :: c) n)) /\ ncnt (plug c P) <= S (ncnt (plug (f :: c) n))).
    { destruct c as [|f' c'].
      - cbn [plug]. unfold P, plug1. cbn [nok na ncnt]. repeat split; auto. congruence.
      - cbn [plug]. destruct (plug_root (f' :: c') P (plug1 f n)) as (R1 & R2 & R3); [discriminate|].
        cbn [plug] in *. rewrite R1, R2, R3. repeat split; auto. }
    destruct RP as (RP1 & RP2 & RP3 & RP4).
    assert (Lfin : forall c', csame c c' -> lk (plug c' P)).
    { intros c' Sm. destruct (csame_facts _ _ Sm) as (_ & _ & _ & F4 & F5).
      apply lk_plug; [auto| |exact LP]. unfold P. cbn [npar]. congruence. }
    assert (fin : forall c', csame c c' -> cshape (S (S h)) nb c' -> S (fc f) <= mx C ->
      split_post (f :: c) (plug (f :: c) n) (S h + length (f :: c)) (ST (plug c' P) (S x2))).
    { intros c' Sm Cs Le. destruct (csame_facts _ _ Sm) as (F3 & F4 & F5 & F6 & F7).
      exists (S h + length (f :: c)). cbn [root nxt]. split.
      - replace (S h + length (f :: c)) with (S (S h) + length c') by (cbn [length]; lia).
        apply shape_plug; auto; [lia|]. unfold P. cbn [RtShape.shape].
        split; [rewrite C1; reflexivity|]. split; [auto|]. split; [|auto].
        rewrite LenP. unfold flo in C3. unfold lowc, rootlo. cbn [Nat.eqb].
        destruct c', c; try discriminate; lia.
      - split; [apply lk_plug; [auto| |exact LP]; unfold P; cbn [npar]; congruence|].
        split; [eapply Permutation_NoDup; [apply addrs_csame, Sm|exact NP]|].
        split; [eapply Permutation_Forall; [apply addrs_csame, Sm|exact BP]|].
        split; [rewrite <- EP, !entries_plug, F5; reflexivity|].
        destruct (csame_root _ _ P Sm) as (R1 & R2 & R3). rewrite <- R1, <- R2, <- R3.
        split; [exact RP2|]. left. split; [discriminate|]. auto. }
    destruct (Nat.ltb_spec (mx C) (S (fc f))) as [Ov|Ov].
    + (* the parent overflows *)
      assert (Efc : fc f = mx C) by lia. unfold P in *. rewrite Efc in *. clear fin.
      edestruct (IH fuel (S h) (fa f) (fp f) (flf f) nb (fok f) (fl f ++ reset n' :: frt f ++ [reset_kids g2])
         (S x2) (fb f)) as (s' & R & Post); try eassumption.
      { cbn [length] in Hf. lia. }
      exists s'. split; [exact R|].
      destruct Post as (H' & Q1 & Q2 & Q3 & Q4 & Q5 & Q6 & Q7).
      exists H'. split; [exact Q1|]. split; [exact Q2|]. split; [exact Q3|]. split; [exact Q4|].
      split; [now rewrite Q5|]. split; [congruence|].
      destruct Q7 as [(Qc & Q7 & Q8 & Q9 & Q10)|(Q7 & Q8 & Q9 & Q10)].
      * left. split; [discriminate|]. split; [cbn [length]; lia|]. split; [auto|]. split; [congruence|].
        rewrite RP3 in Q10 by exact Qc. exact Q10.
      * right. split; [cbn [length]; lia|]. split; [auto|]. split; [intros Hn; apply Q9; congruence|].
        destruct c as [|f' c']; [cbn [plug plug1 ncnt]; lia|]. rewrite <- RP3 by discriminate. exact Q10.
    + destruct (negb (box_eqb nb (fb f))) eqn:E.
      * destruct (pack_upward_ok C tg rl rl1 rl2 kl kl1 klm c (S (S h)) P (fb f) (nnodes (plug c P)) C6) as (c' & R & Sc & Sm); auto.
        { cbn [nbox P]. apply FP. }
        { pose proof (nnodes_plug c P). lia. }
        change (npar (plug1 f n')) with (fp f). rewrite K2, R. cbn [bind]. eexists. split; [reflexivity|]. apply fin; auto.
      * apply negb_false_iff, box_eqb_eq in E. eexists. split; [reflexivity|]. apply fin; auto; [apply csame_refl|].
        rewrite E. exact C6.
Qed.

End S.
