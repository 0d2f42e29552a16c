(** Shape of the trees of the rtree model, and the upward walks. *)

From Coq Require Import List ZArith Lia Bool Permutation.
From Verif Require Import Base RtModel RtBox RtPerm RtTree.
Import ListNotations.
Open Scope nat_scope.

(** What the template checks of its traits at compile time (rtree_def.inl:1240-1246),
    and what it takes for granted: at least one child per node, at least one
    node to reinsert, and a sort that permutes *)
Record traits_ok (C : cfg) : Prop := {
  t_min : 1 <= mn C;
  t_max : 2 * mn C <= mx C;
  t_reins : 1 <= reins C;
  t_reins_max : reins C + mn C <= mx C + 1;
  t_sort : forall (A : Type) (lt : A -> A -> bool) (l : list A), Permutation (srt C A lt l) l }.

Section S.
Context {V : Type}.
Variable C : cfg.
Hypothesis T : traits_ok C.
Variable tg : bool.
Variable rl : nat.
Hypothesis rl1 : 1 <= rl.
Hypothesis rl2 : rl <= 2.
Variable kl : nat.
Hypothesis kl1 : 1 <= kl.
Hypothesis klm : kl <= mn C.
Implicit Types (n k t x : nd V) (ks l : list (nd V)) (c : list (fr V)).

Notation lenD := (fun b : box => length b = dims C).

(** All values at the same height, counts within bounds, boxes that fit *)
Fixpoint shape (h lo hi : nat) (n : nd V) : Prop :=
  match h, n with
  | O, NV _ _ b _ => length b = dims C
  | S h', ND _ _ lf b c _ ks =>
      lf = Nat.eqb h' 0 /\ c = length ks /\ (lo <= length ks <= hi) /\
      fit (dims C) tg b (map nbox ks) /\ Forall (shape h' kl (mx C)) ks
  | _, _ => False
  end.

Notation kid h := (shape h kl (mx C)).

Definition rootlo (h : nat) : nat := if Nat.eqb h 1 then 0 else rl.
Definition tshape (h : nat) (t : nd V) : Prop := 1 <= h /\ shape h (rootlo h) (mx C) t.

Lemma shape_box h lo hi n : shape h lo hi n -> length (nbox n) = dims C.
Proof.
  destruct h as [|h], n as [a p b v|a p lf b c ok ks]; cbn [shape nbox]; intros H; try contradiction; auto.
  destruct H as (_ & _ & _ & F & _). apply F.
Qed.

Lemma shape_boxes h lo hi l : Forall (shape h lo hi) l -> Forall lenD (map nbox l).
Proof. intros H. rewrite Forall_map. eapply Forall_impl; [|exact H]. cbn. intros n. apply shape_box. Qed.

Lemma shape_core h lo hi n : shape h lo hi (core n) <-> shape h lo hi n.
Proof. destruct h, n; reflexivity. Qed.
Lemma shape_set_par h lo hi p n : shape h lo hi (set_par p n) <-> shape h lo hi n.
Proof. destruct h, n; reflexivity. Qed.
Lemma shape_set_a h lo hi p n : shape h lo hi (set_a p n) <-> shape h lo hi n.
Proof. destruct h, n; reflexivity. Qed.
Lemma shape_set_ok h lo hi p n : shape h lo hi (set_ok p n) <-> shape h lo hi n.
Proof. destruct h, n; reflexivity. Qed.

Lemma map_nbox_reset l : map nbox (map (fun k => set_par (Some 0) (reset_kids k)) l) = map nbox l.
Proof. rewrite map_map. apply map_ext. intros k. now rewrite nbox_set_par, nbox_reset_kids. Qed.

Lemma shape_reset_kids h lo hi n : shape h lo hi n -> shape h lo hi (reset_kids n).
Proof.
  revert lo hi n. induction h as [|h IH]; intros lo hi [a p b v|a p lf b c [] ks] H; cbn [reset_kids]; auto.
  cbn [shape] in *. destruct H as (H1 & H2 & H3 & H4 & H5).
  rewrite map_length, map_map. rewrite (map_ext _ nbox)
    by (intros k; now rewrite nbox_set_par, nbox_reset_kids).
  repeat split; try tauto; try apply H4. rewrite Forall_map.
  eapply Forall_impl; [|exact H5]. intros k Hk. apply shape_set_par, IH, Hk.
Qed.

Lemma shape_weaken h lo hi lo' hi' n : lo' <= lo -> hi <= hi' -> 1 <= h ->
  shape h lo hi n -> shape h lo' hi' n.
Proof.
  intros L1 L2 Hh. destruct h as [|h]; [lia|]. destruct n as [a p b v|a p lf b c ok ks]; cbn [shape]; [auto|].
  intros (H1 & H2 & H3 & H4 & H5). split; [auto|]. split; [auto|]. split; [lia|auto].
Qed.

(** *** Contexts *)
Definition flo (c : list (fr V)) : nat := match c with [] => rl | _ => kl end.
Definition lowc (c : list (fr V)) (h : nat) : nat := match c with [] => rootlo h | _ => kl end.

(** A context around a directory of height [h] and box [b] *)
Fixpoint cshape (h : nat) (b : box) (c : list (fr V)) : Prop :=
  match c with
  | [] => True
  | f :: c' =>
      flf f = false /\ fc f = length (fl f) + length (frt f) + 1 /\ (flo c' <= fc f <= mx C) /\
      fit (dims C) tg (fb f) (map nbox (fl f) ++ b :: map nbox (frt f)) /\
      Forall (kid h) (fl f ++ frt f) /\ cshape (S h) (fb f) c'
  end.

Lemma shape_plug c : forall h n, 1 <= h ->
  cshape h (nbox n) c -> shape h (lowc c h) (mx C) n -> tshape (h + length c) (plug c n).
Proof.
  induction c as [|f c IH]; intros h n Hh Hc Hn; cbn [plug length].
  - rewrite Nat.add_0_r. split; auto.
  - cbn [cshape] in Hc. destruct Hc as (C1 & C2 & C3 & C4 & C5 & C6).
    replace (h + S (length c)) with (S h + length c) by lia. apply IH; [lia|exact C6|].
    cbn [lowc] in Hn. unfold plug1. cbn [shape].
    rewrite app_length. cbn [length]. rewrite map_app. cbn [map].
    assert (E : Nat.eqb h 0 = false) by (apply Nat.eqb_neq; lia).
    rewrite E. split; [auto|]. split; [lia|]. split; [|split; [exact C4|]].
    + unfold flo in C3. unfold lowc, rootlo. destruct c; [|lia].
      replace (Nat.eqb (S h) 1) with false by (symmetry; apply Nat.eqb_neq; lia). lia.
    + apply Forall_app in C5. destruct C5. apply Forall_app. auto.
Qed.

Lemma shape_unplug c : forall h n, 1 <= h ->
  shape (h + length c) (rootlo (h + length c)) (mx C) (plug c n) ->
  cshape h (nbox n) c /\ shape h (lowc c h) (mx C) n.
Proof.
  induction c as [|f c IH]; intros h n Hh Hs; cbn [plug length] in *.
  - rewrite Nat.add_0_r in Hs. cbn [cshape lowc]. auto.
  - replace (h + S (length c)) with (S h + length c) in Hs by lia.
    destruct (IH (S h) (plug1 f n) ltac:(lia) Hs) as [I1 I2].
    unfold plug1 in I2. cbn [shape] in I2. destruct I2 as (S1 & S2 & S3 & S4 & S5).
    rewrite map_app in S4. cbn [map] in S4. rewrite app_length in *. cbn [length] in *.
    assert (E : Nat.eqb h 0 = false) by (apply Nat.eqb_neq; lia). rewrite E in S1.
    apply Forall_app in S5. destruct S5 as [S5 S6]. inversion S6 as [|? ? S7 S8]; subst.
    split; [|exact S7]. cbn [cshape]. split; [auto|]. split; [lia|]. split; [|split; [exact S4|]].
    + unfold lowc, rootlo, flo in *. destruct c; [|lia].
      replace (Nat.eqb (S h) 1) with false in S3 by (symmetry; apply Nat.eqb_neq; lia). lia.
    + split; [apply Forall_app; auto|]. exact I1.
Qed.

(** Contexts that differ in their boxes only *)
Definition eb (f : fr V) : fr V := FR (fa f) (fp f) (flf f) [] (fc f) (fok f) (fl f) (frt f).
Definition csame (c c' : list (fr V)) : Prop := map eb c = map eb c'.

Lemma csame_refl c : csame c c.
Proof. reflexivity. Qed.

Lemma csame_cons f f' c c' : eb f = eb f' -> csame c c' -> csame (f :: c) (f' :: c').
Proof. unfold csame. cbn [map]. intros -> ->. reflexivity. Qed.

Lemma csame_facts c c' : csame c c' ->
  length c = length c' /\ caddrs c = caddrs c' /\ centries c = centries c' /\ hpar c = hpar c' /\
  (clk c -> clk c').
Proof.
  revert c'. induction c as [|f c IH]; intros [|f' c'] H; try discriminate.
  - repeat split; auto.
  - unfold csame in H. cbn [map] in H. injection H as E1 E2 E3 E4 E5 E6 E7 E8.
    destruct (IH c' E8) as (I1 & I2 & I3 & I4 & I5). cbn [length caddrs centries flat_map hpar clk].
    fold (caddrs c) (caddrs c') (centries c) (centries c').
    unfold faddrs. rewrite E1, E6, E7, I1, I2, I3. do 4 (split; [reflexivity|]).
    rewrite E2, <- I4. tauto.
Qed.

Lemma csame_root c c' n : csame c c' -> nok (plug c n) = nok (plug c' n) /\ na (plug c n) = na (plug c' n) /\
  ncnt (plug c n) = ncnt (plug c' n).
Proof.
  assert (G : forall c c' n n', csame c c' -> nok n = nok n' -> na n = na n' -> ncnt n = ncnt n' ->
     nok (plug c n) = nok (plug c' n') /\ na (plug c n) = na (plug c' n') /\ ncnt (plug c n) = ncnt (plug c' n')).
  { clear. induction c as [|f c IH]; intros [|f' c'] n n' H H1 H2 H3; try discriminate; cbn [plug]; auto.
    unfold csame in H. cbn [map] in H. injection H as E1 E2 E3 E4 E5 E6 E7 E8.
    apply IH; auto. }
  intros H. apply G; auto.
Qed.

Lemma addrs_csame c c' n : csame c c' -> Permutation (addrs (plug c n)) (addrs (plug c' n)).
Proof. intros H. rewrite !addrs_plug. destruct (csame_facts _ _ H) as (_ & -> & _). reflexivity. Qed.

(** *** pack_upward *)
Lemma pack_upward_ok c : forall h n b0 fuel,
  cshape h b0 c -> length (nbox n) = dims C -> NoDup (addrs (plug c n)) -> clk c -> length c <= fuel ->
  exists c', pack_upward C fuel (plug c n) (hpar c) = Ok (plug c' n) /\
    cshape h (nbox n) c' /\ csame c c'.
Proof.
  induction c as [|f c IH]; intros h n b0 fuel Hc L N K Hf.
  - exists []. destruct fuel; repeat split; reflexivity.
  - destruct fuel as [|fuel]; [cbn [length] in Hf; lia|]. cbn [hpar pack_upward plug] in *.
    cbn [clk] in K. destruct K as (K1 & K2 & K3).
    cbn [cshape] in Hc. destruct Hc as (C1 & C2 & C3 & C4 & C5 & C6).
    change (fa f) with (na (plug1 f n)). rewrite get_plug by exact N. cbn [deref bind].
    assert (Ep : pack C (plug1 f n) = (set_box (hull (dims C) (map nbox (fl f ++ n :: frt f))) (plug1 f n),
      negb (box_eqb (hull (dims C) (map nbox (fl f ++ n :: frt f))) (fb f)))) by reflexivity.
    rewrite Ep. clear Ep. set (nb := hull _ _).
    assert (Lb : Forall lenD (map nbox (fl f ++ n :: frt f))).
    { apply Forall_app in C5. destruct C5 as [C5 C7]. rewrite map_app. cbn [map].
      apply Forall_app. split; [eapply shape_boxes; eauto|]. constructor; [auto|]. eapply shape_boxes; eauto. }
    rewrite upd_plug by exact N. cbn [plug1 set_box npar].
    set (f' := FR (fa f) (fp f) (flf f) nb (fc f) (fok f) (fl f) (frt f)).
    change (ND (fa f) (fp f) (flf f) nb (fc f) (fok f) (fl f ++ n :: frt f)) with (plug1 f' n).
    assert (Fit : fit (dims C) tg nb (map nbox (fl f) ++ nbox n :: map nbox (frt f))).
    { unfold nb. pose proof (fit_hull (dims C) tg _ Lb) as F. rewrite map_app in *. exact F. }
    destruct (negb (box_eqb nb (fb f))) eqn:E.
    + destruct (IH (S h) (plug1 f' n) (fb f) fuel C6) as (c' & R & S' & Sm).
      * cbn [plug1 nbox]. apply Fit.
      * rewrite addrs_plug in *. rewrite (addrs_plug1 f' n). rewrite (addrs_plug1 f n) in N. exact N.
      * exact K3.
      * cbn [length] in Hf. lia.
      * rewrite K2, R. exists (f' :: c'). split; [reflexivity|]. split.
        -- cbn [cshape f' flf fc fl frt fb]. split; [exact C1|]. split; [exact C2|].
           split; [destruct (csame_facts _ _ Sm) as (Sl & _); unfold flo in *;
              destruct c, c'; try discriminate; apply C3|].
           split; [exact Fit|]. split; [exact C5|exact S'].
        -- apply csame_cons; [reflexivity|exact Sm].
    + apply negb_false_iff, box_eqb_eq in E. exists (f' :: c). split; [reflexivity|]. split.
      * cbn [cshape f' flf fc fl frt fb]. split; [exact C1|]. split; [exact C2|].
        split; [exact C3|]. split; [exact Fit|]. split; [exact C5|]. cbn [f' fb]. rewrite E. exact C6.
      * apply csame_cons; [reflexivity|apply csame_refl].
Qed.

(** *** Enlarging the boxes up to the root *)
Lemma enlarge_up_ok c : forall h n b0 bb fuel,
  cshape h b0 c -> length b0 = dims C -> nbox n = enl b0 bb ->
  NoDup (addrs (plug c n)) -> clk c -> length c <= fuel ->
  exists c', enlarge_up fuel (plug c n) (hpar c) bb = Ok (plug c' n) /\
    cshape h (nbox n) c' /\ csame c c'.
Proof.
  induction c as [|f c IH]; intros h n b0 bb fuel Hc L B N K Hf.
  - exists []. destruct fuel; repeat split; reflexivity.
  - destruct fuel as [|fuel]; [cbn [length] in Hf; lia|]. cbn [hpar enlarge_up plug] in *.
    cbn [clk] in K. destruct K as (K1 & K2 & K3).
    cbn [cshape] in Hc. destruct Hc as (C1 & C2 & C3 & C4 & C5 & C6).
    change (fa f) with (na (plug1 f n)). rewrite get_plug by exact N. cbn [deref bind].
    rewrite upd_plug by exact N. cbn [plug1 set_box nbox npar].
    set (f' := FR (fa f) (fp f) (flf f) (enl (fb f) bb) (fc f) (fok f) (fl f) (frt f)).
    change (ND (fa f) (fp f) (flf f) (enl (fb f) bb) (fc f) (fok f) (fl f ++ n :: frt f)) with (plug1 f' n).
    assert (Fit : fit (dims C) tg (enl (fb f) bb) (map nbox (fl f) ++ nbox n :: map nbox (frt f))).
    { rewrite B. apply fit_replace; [|exact C4].
      apply Forall_app in C5. destruct C5 as [C5 C7].
      apply Forall_app. split; [eapply shape_boxes; eauto|]. constructor; [auto|]. eapply shape_boxes; eauto. }
    destruct (IH (S h) (plug1 f' n) (fb f) bb fuel C6) as (c' & R & S' & Sm).
    * apply C4.
    * reflexivity.
    * rewrite addrs_plug in *. rewrite (addrs_plug1 f' n). rewrite (addrs_plug1 f n) in N. exact N.
    * exact K3.
    * cbn [length] in Hf. lia.
    * rewrite K2, R. exists (f' :: c'). split; [reflexivity|]. split.
      -- cbn [cshape f' flf fc fl frt fb]. split; [exact C1|]. split; [exact C2|].
           split; [destruct (csame_facts _ _ Sm) as (Sl & _); unfold flo in *;
              destruct c, c'; try discriminate; apply C3|].
           split; [exact Fit|]. split; [exact C5|exact S'].
      -- apply csame_cons; [reflexivity|exact Sm].
Qed.

(** *** Sorting the children of a node *)
Lemma sort_dim_spec d ks :
  map na (sort_dim C d ks) = map na ks /\ Permutation (map core (sort_dim C d ks)) (map core ks) /\
  Forall (fun k => set_ok false k = k) (sort_dim C d ks).
Proof.
  unfold sort_dim. pose proof (t_sort C T (nd V) (dim_lt d) ks) as P. set (l := srt _ _ _ _) in *.
  pose proof (Permutation_length P) as L.
  assert (Le : length l <= length (map na ks)) by (rewrite map_length; lia).
  split; [|split].
  - rewrite map_map. rewrite (map_ext _ na) by (intros k; apply na_set_ok). rewrite na_reslot by auto.
    rewrite L, <- (map_length na ks). apply firstn_all.
  - rewrite map_map. rewrite (map_ext _ core) by (intros k; destruct k; reflexivity).
    rewrite core_reslot by auto. now apply Permutation_map.
  - rewrite Forall_map. apply Forall_forall. intros k _. destruct k; reflexivity.
Qed.

Lemma sort_split_spec ks :
  map na (sort_split C ks) = map na ks /\ Permutation (map core (sort_split C ks)) (map core ks) /\
  Forall (fun k => set_ok false k = k) (sort_split C ks).
Proof.
  unfold sort_split.
  assert (G : forall ds (s : list (nd V) * option (Z * nat)),
    let s' := fold_left (fun s dim => let ks := sort_dim C dim (fst s) in
      (ks, minpos (snd s) (sum_margins C ks) dim)) ds s in
    map na (fst s') = map na (fst s) /\ Permutation (map core (fst s')) (map core (fst s))).
  { induction ds as [|d ds IH]; intros s; [split; reflexivity|]. cbn [fold_left].
    destruct (IH (sort_dim C d (fst s), minpos (snd s) (sum_margins C (sort_dim C d (fst s))) d)) as [I1 I2].
    destruct (sort_dim_spec d (fst s)) as (D1 & D2 & _).
    cbn [fst snd] in *. split; [rewrite I1; exact D1|rewrite I2; exact D2]. }
  specialize (G (seq 0 (dims C)) (ks, None)). cbn zeta in G.
  destruct (fold_left _ _ _) as [ks1 m]. cbn [fst] in G. destruct G as [G1 G2].
  destruct (sort_dim_spec (pos_of m) ks1) as (D1 & D2 & D3).
  split; [congruence|]. split; [now rewrite D2|auto].
Qed.

Lemma pick_dist_bounds ks : 1 <= pick_dist C ks <= max_dist C.
Proof.
  unfold pick_dist.
  assert (G : forall (f : nat -> Z) ds m, (forall p v, m = Some (v, p) -> 1 <= p <= max_dist C) ->
    (forall d, In d ds -> 1 <= d <= max_dist C) -> (m <> None \/ ds <> []) ->
    1 <= pos_of (fold_left (fun m d => minpos m (f d) d) ds m) <= max_dist C).
  { intros f. induction ds as [|d ds IH]; intros m Hm Hd Hn; cbn [fold_left].
    - destruct m as [[v p]|]; [cbn [pos_of]; eauto|]. destruct Hn; congruence.
    - apply IH.
      + intros p v E. assert (Hdd : 1 <= d <= max_dist C) by (apply Hd; left; auto).
        unfold minpos in E. destruct m as [[w q]|].
        * destruct (Z.ltb (f d) w); inversion E; subst; eauto.
        * inversion E; subst; auto.
      + intros d' Hd'. apply Hd. right. auto.
      + left. unfold minpos. destruct m as [[w q]|]; [destruct (Z.ltb (f d) w)|]; discriminate. }
  apply (G (fun dist => volume (hull (dims C) (map nbox (firstn (mn C - 1 + dist) ks)))
                  (hull (dims C) (map nbox (skipn (mn C - 1 + dist) ks))))).
  - discriminate.
  - intros d Hd. apply in_seq in Hd. lia.
  - right. unfold max_dist. pose proof (t_max C T). destruct (mx C - mn C * 2 + 2) eqn:E; [lia|discriminate].
Qed.

End S.
