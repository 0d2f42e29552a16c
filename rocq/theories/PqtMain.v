(** point_quad_tree: whole calls, copies, equality and histories. *)

From Coq Require Import List ZArith Lia Bool Permutation Sorted.
From Verif Require Import Base PqtModel PqtSpec PqtProofs PqtRemove PqtRemove2.
Import ListNotations.
Open Scope Z_scope.

Section P.
Context {V : Type}.
Implicit Types t d c : qt V.
Notation pt := (Z * Z * V)%type.

(** ** remove *)

Definition remove_post (x y : Z) t t' : Prop :=
  wf t' /\
  match find_node x y t with
  | QE => t' = t
  | QN _ _ _ v _ _ _ _ => exists lost,
      Permutation (stored t) ((x, y, v) :: stored t' ++ lost) /\ (direct_at x y t <-> lost = [])
  end.

Lemma leaf_no_replacement x y k cx cy (v : V) :
  find_replacement x y (QN k cx cy v QE QE QE QE) = None.
Proof. reflexivity. Qed.

Lemma find_node_root x y k (v : V) ne nw se sw :
  find_node x y (QN k x y v ne nw se sw) = QN k x y v ne nw se sw.
Proof. cbn [find_node]. rewrite !Z.eqb_refl. reflexivity. Qed.

Lemma find_node_key x y t : match find_node x y t with QE => True | QN _ a b _ _ _ _ _ => a = x /\ b = y end.
Proof.
  induction t as [|k cx cy cv ne IH1 nw IH2 se IH3 sw IH4]; [exact I|]. cbn [find_node].
  destruct ((cx =? x) && (cy =? y)) eqn:E.
  - apply xy_eqb in E. split; congruence.
  - destruct (get_quadrant cx cy x y); assumption.
Qed.

Lemma remove_here_spec root x y t t' k v ne nw se sw :
  t = QN k x y v ne nw se sw -> wf t -> remove_here root t = Ok t' -> remove_post x y t t'.
Proof.
  intros Et W E. unfold remove_here in E. destruct (leaf t) eqn:L.
  - assert (Z : t = QN k x y v QE QE QE QE).
    { subst t. cbn [leaf] in L. destruct ne, nw, se, sw; try discriminate. reflexivity. }
    assert (t' = QE) by (destruct root; [congruence|destruct t as [|[]]; congruence]). subst t'.
    split; [exact I|]. rewrite Z. rewrite find_node_root. exists []. split; [reflexivity|].
    split; [reflexivity|]. intros _. intros q rx ry H. rewrite find_node_root, leaf_no_replacement in H. discriminate.
  - pose proof (remove_inner_spec t t' W L E) as P. subst t. unfold inner_post in P.
    destruct P as (W' & q & rx & ry & lost & Er & Pp & H1 & H2).
    split; [exact W'|]. rewrite find_node_root. exists lost. split; [exact Pp|].
    unfold direct_at. rewrite find_node_root. split.
    + intros D. apply H1. apply (D _ _ _ Er).
    + intros E0 q' rx' ry' Er'. rewrite Er in Er'. injection Er' as <- <- <-.
      destruct (child (opposite q) (child q (QN k x y v ne nw se sw))); [reflexivity|].
      exfalso. apply H2; [discriminate|exact E0].
Qed.

Lemma direct_at_eq x y t t0 : find_node x y t = find_node x y t0 -> direct_at x y t <-> direct_at x y t0.
Proof. unfold direct_at. intros ->. reflexivity. Qed.

Lemma remove_at_spec x y t : forall root t', wf t -> remove_at root x y t = Ok t' -> remove_post x y t t'.
Proof.
  induction t as [|k cx cy cv ne IH1 nw IH2 se IH3 sw IH4]; intros root t' W E.
  - injection E as <-. split; [exact I|reflexivity].
  - cbn [remove_at] in E. destruct ((cx =? x) && (cy =? y)) eqn:Ec.
    { apply xy_eqb in Ec. injection Ec as -> ->. eapply remove_here_spec; eauto. }
    pose proof W as (W1 & W2 & W3 & W4 & F1 & F2 & F3 & F4).
    assert (Fn : find_node x y (QN k cx cy cv ne nw se sw) =
                 find_node x y (child (get_quadrant cx cy x y) (QN k cx cy cv ne nw se sw))).
    { cbn [find_node]. rewrite Ec. destruct (get_quadrant cx cy x y); reflexivity. }
    destruct (get_quadrant cx cy x y); cbn [child] in Fn.
    + destruct (remove_at false x y ne) as [c'| |] eqn:E1; try discriminate. injection E as <-.
      destruct (IH1 _ _ W1 E1) as [Wc Hc]. pose proof (direct_at_eq _ _ _ _ Fn) as Dq. unfold remove_post. rewrite Fn.
      destruct (find_node x y ne) as [|k0 x0 y0 v0 a b c0 d0].
      * subst c'. split; [exact W|reflexivity].
      * destruct Hc as (lost & Pc & Hl). split.
        { cbn [wf]. repeat (split; [assumption|]). split; [|auto].
          apply (perm_forall_l _ _ _ ((x, y, v0) :: lost)) with (2 := F1). rewrite Pc. perm. }
        exists lost. split; [cbn [stored]; rewrite Pc; perm|rewrite Dq; exact Hl].
    + destruct (remove_at false x y nw) as [c'| |] eqn:E1; try discriminate. injection E as <-.
      destruct (IH2 _ _ W2 E1) as [Wc Hc]. pose proof (direct_at_eq _ _ _ _ Fn) as Dq. unfold remove_post. rewrite Fn.
      destruct (find_node x y nw) as [|k0 x0 y0 v0 a b c0 d0].
      * subst c'. split; [exact W|reflexivity].
      * destruct Hc as (lost & Pc & Hl). split.
        { cbn [wf]. repeat (split; [assumption|]). split; [|auto].
          apply (perm_forall_l _ _ _ ((x, y, v0) :: lost)) with (2 := F2). rewrite Pc. perm. }
        exists lost. split; [cbn [stored]; rewrite Pc; perm|rewrite Dq; exact Hl].
    + destruct (remove_at false x y se) as [c'| |] eqn:E1; try discriminate. injection E as <-.
      destruct (IH3 _ _ W3 E1) as [Wc Hc]. pose proof (direct_at_eq _ _ _ _ Fn) as Dq. unfold remove_post. rewrite Fn.
      destruct (find_node x y se) as [|k0 x0 y0 v0 a b c0 d0].
      * subst c'. split; [exact W|reflexivity].
      * destruct Hc as (lost & Pc & Hl). split.
        { cbn [wf]. repeat (split; [assumption|]). split; [|auto].
          apply (perm_forall_l _ _ _ ((x, y, v0) :: lost)) with (2 := F3). rewrite Pc. perm. }
        exists lost. split; [cbn [stored]; rewrite Pc; perm|rewrite Dq; exact Hl].
    + destruct (remove_at false x y sw) as [c'| |] eqn:E1; try discriminate. injection E as <-.
      destruct (IH4 _ _ W4 E1) as [Wc Hc]. pose proof (direct_at_eq _ _ _ _ Fn) as Dq. unfold remove_post. rewrite Fn.
      destruct (find_node x y sw) as [|k0 x0 y0 v0 a b c0 d0].
      * subst c'. split; [exact W|reflexivity].
      * destruct Hc as (lost & Pc & Hl). split.
        { cbn [wf]. repeat (split; [assumption|]). 
          apply (perm_forall_l _ _ _ ((x, y, v0) :: lost)) with (2 := F4). rewrite Pc. perm. }
        exists lost. split; [cbn [stored]; rewrite Pc; perm|rewrite Dq; exact Hl].
Qed.

Lemma linked_to_below t : linked t -> linked_below t.
Proof.
  destruct t as [|k x y v ne nw se sw]; intros H q; [destruct q; exact I|].
  destruct H as (_ & H1 & H2 & H3 & H4). destruct q; assumption.
Qed.

Lemma remove_at_total x y t : forall root, wf t -> (root = false -> linked t) -> linked_below t ->
  exists t', remove_at root x y t = Ok t'.
Proof.
  induction t as [|k cx cy cv ne IH1 nw IH2 se IH3 sw IH4]; intros root W Lk Lb; [eexists; reflexivity|].
  cbn [remove_at]. destruct ((cx =? x) && (cy =? y)) eqn:Ec.
  - unfold remove_here. destruct (leaf _) eqn:L.
    + destruct root; [eauto|]. destruct (Lk eq_refl) as (-> & _). eauto.
    + apply remove_inner_total; auto. discriminate.
  - pose proof (Lb NE) as L1. pose proof (Lb NW) as L2. pose proof (Lb SE) as L3. pose proof (Lb SW) as L4.
    cbn [child] in *. destruct W as (W1 & W2 & W3 & W4 & _).
    destruct (get_quadrant cx cy x y).
    + destruct (IH1 false W1 (fun _ => L1) (linked_to_below _ L1)) as (t' & ->). cbn [bind]. eauto.
    + destruct (IH2 false W2 (fun _ => L2) (linked_to_below _ L2)) as (t' & ->). cbn [bind]. eauto.
    + destruct (IH3 false W3 (fun _ => L3) (linked_to_below _ L3)) as (t' & ->). cbn [bind]. eauto.
    + destruct (IH4 false W4 (fun _ => L4) (linked_to_below _ L4)) as (t' & ->). cbn [bind]. eauto.
Qed.

Lemma remove_at_leaf x y t : forall root t', (find_node x y t = QE \/ leaf_at x y t) ->
  remove_at root x y t = Ok t' -> (linked t -> linked t') /\ (linked_below t -> linked_below t').
Proof.
  induction t as [|k cx cy cv ne IH1 nw IH2 se IH3 sw IH4]; intros root t' H E.
  - injection E as <-. auto.
  - unfold leaf_at in *. cbn [remove_at find_node] in *. destruct ((cx =? x) && (cy =? y)) eqn:Ec.
    + destruct H as [H|H]; [discriminate|]. unfold remove_here in E. rewrite H in E.
      assert (t' = QE) by (destruct root; [congruence|destruct k; congruence]). subst t'.
      split; [intros; exact I|]. intros _ q. destruct q; exact I.
    + destruct (get_quadrant cx cy x y).
      * destruct (remove_at false x y ne) as [c'| |] eqn:E1; try discriminate. injection E as <-.
        destruct (IH1 _ _ H E1) as [I1 I2]. split.
        { intros (K0 & K1 & K2 & K3 & K4). cbn [linked]. auto 10. }
        { intros K q. pose proof (K NE). pose proof (K NW). pose proof (K SE). pose proof (K SW).
          destruct q; cbn [child] in *; auto. }
      * destruct (remove_at false x y nw) as [c'| |] eqn:E1; try discriminate. injection E as <-.
        destruct (IH2 _ _ H E1) as [I1 I2]. split.
        { intros (K0 & K1 & K2 & K3 & K4). cbn [linked]. auto 10. }
        { intros K q. pose proof (K NE). pose proof (K NW). pose proof (K SE). pose proof (K SW).
          destruct q; cbn [child] in *; auto. }
      * destruct (remove_at false x y se) as [c'| |] eqn:E1; try discriminate. injection E as <-.
        destruct (IH3 _ _ H E1) as [I1 I2]. split.
        { intros (K0 & K1 & K2 & K3 & K4). cbn [linked]. auto 10. }
        { intros K q. pose proof (K NE). pose proof (K NW). pose proof (K SE). pose proof (K SW).
          destruct q; cbn [child] in *; auto. }
      * destruct (remove_at false x y sw) as [c'| |] eqn:E1; try discriminate. injection E as <-.
        destruct (IH4 _ _ H E1) as [I1 I2]. split.
        { intros (K0 & K1 & K2 & K3 & K4). cbn [linked]. auto 10. }
        { intros K q. pose proof (K NE). pose proof (K NW). pose proof (K SE). pose proof (K SW).
          destruct q; cbn [child] in *; auto. }
Qed.

Lemma leaf_direct x y t : leaf_at x y t -> direct_at x y t.
Proof.
  unfold leaf_at, direct_at. intros L q rx ry H. exfalso.
  destruct (find_node x y t) as [|k cx cy v ne nw se sw]; [discriminate|].
  cbn [leaf] in L. destruct ne, nw, se, sw; try discriminate.
Qed.

Lemma absent_direct x y t : find_node x y t = QE -> direct_at x y t.
Proof. unfold direct_at. intros -> q rx ry H. destruct q; reflexivity. Qed.

Lemma no_inner_direct x y t : no_inner_at x y t -> direct_at x y t.
Proof. unfold no_inner_at, direct_at. auto. Qed.

(** ** contents *)

Lemma shows_iff t m : wf t ->
  shows t m <-> forall x y v, In (x, y, v) (stored t) <-> m x y = Some v.
Proof.
  intros W. unfold shows. split.
  - intros H x y v. rewrite <- (find_ok t x y v W), H. destruct (m x y); split; congruence.
  - intros H x y. destruct (m x y) as [v|] eqn:E.
    + apply find_ok; auto. apply H. exact E.
    + apply find_none; auto. intros v Hi. apply H in Hi. congruence.
Qed.

(** the map a tree stores *)
Definition content_of t : content V :=
  fun x y => match find x y t with Ok v => Some v | _ => None end.

Lemma find_node_find x y t : find x y t = Throw E_general \/ exists v, find x y t = Ok v.
Proof. unfold find. destruct (find_node x y t); eauto. Qed.

Lemma content_shown t : shows t (content_of t).
Proof.
  intros x y. unfold content_of. destruct (find_node_find x y t) as [->|(v & ->)]; reflexivity.
Qed.

Lemma shows_ext t m m' : (forall x y, m x y = m' x y) -> shows t m -> shows t m'.
Proof. intros E H x y. rewrite H, E. reflexivity. Qed.

Lemma shows_unique t m m' : shows t m -> shows t m' -> forall x y, m x y = m' x y.
Proof.
  intros H H' x y. pose proof (H x y) as E. rewrite (H' x y) in E. destruct (m x y), (m' x y); congruence.
Qed.

Lemma insert_shows t m x y v : wf t -> shows t m -> shows (insert x y v t) (put x y v m).
Proof.
  intros W H. rewrite shows_iff in H by assumption. rewrite shows_iff by (apply insert_wf, W).
  intros a b w. rewrite insert_in by assumption. rewrite H. cbn [fst]. unfold put.
  destruct ((a =? x) && (b =? y)) eqn:E.
  - assert (E' : (a, b) = (x, y)) by (apply xy_eqb in E; congruence). injection E' as -> ->.
    split; [intros [H'|[_ H']]; congruence|intros [= ->]; left; reflexivity].
  - assert (E' : (a, b) <> (x, y)) by (apply xy_neqb in E; congruence).
    split; [intros [H'|[H' _]]; [congruence|exact H']|intros H'; right; auto].
Qed.

Lemma remove_sub t t' x y : wf t -> remove x y t = Ok t' ->
  wf t' /\ (forall a b v, find a b t' = Ok v -> find a b t = Ok v /\ (a, b) <> (x, y)).
Proof.
  intros W E. destruct (remove_at_spec x y t true t' W E) as [W' H]. split; [exact W'|].
  intros a b v Hf. apply (find_ok t' a b v W') in Hf.
  pose proof (find_node_key x y t) as Kk. pose proof (find_node_in t x y W) as Fi.
  destruct (find_node x y t) as [|k cx cy cv ne nw se sw].
  - subst t'. split; [apply find_ok; assumption|]. intros Eq. injection Eq as -> ->. exact (Fi _ Hf).
  - destruct H as (lost & P & _).
    assert (In (a, b, v) (stored t)) as Hi.
    { eapply Permutation_in; [symmetry; exact P|]. right. apply in_or_app. left. exact Hf. }
    split; [apply find_ok; assumption|]. intros Eq. injection Eq as -> ->.
    pose proof (wf_nodup t W) as N. apply (Permutation_NoDup (perm_keys _ _ P)) in N.
    unfold keys in N. cbn [map] in N. inversion N as [|? ? N1 _]; subst. apply N1.
    rewrite map_app, in_app_iff. left. apply in_map_iff. exists (x, y, v). split; [reflexivity|exact Hf].
Qed.

Lemma remove_shows t t' m x y : wf t -> shows t m -> remove x y t = Ok t' -> direct_at x y t ->
  shows t' (drop x y m).
Proof.
  intros W S E D. destruct (remove_at_spec x y t true t' W E) as [W' H].
  pose proof (find_node_in t x y W) as Fi. pose proof (find_node_key x y t) as Kk.
  rewrite shows_iff in S by assumption. rewrite shows_iff by assumption. intros a b w. unfold drop.
  destruct (find_node x y t) as [|k cx cy cv ne nw se sw] eqn:En.
  - subst t'. rewrite S. destruct ((a =? x) && (b =? y)) eqn:Ec; [|reflexivity].
    assert (E' : (a, b) = (x, y)) by (apply xy_eqb in Ec; congruence). injection E' as -> ->.
    split; [|discriminate]. intros Hm. apply S in Hm. destruct (Fi _ Hm).
  - destruct H as (lost & P & L). apply L in D. subst lost. rewrite app_nil_r in P.
    pose proof (wf_nodup t W) as N. apply (Permutation_NoDup (perm_keys _ _ P)) in N.
    unfold keys in N. cbn [map] in N. inversion N as [|? ? N1 _]; subst.
    destruct ((a =? x) && (b =? y)) eqn:Ec.
    + assert (E' : (a, b) = (x, y)) by (apply xy_eqb in Ec; congruence). injection E' as -> ->.
      split; [|discriminate]. intros Hi. exfalso. apply N1. apply in_map_iff. exists (x, y, w). auto.
    + assert (E' : (a, b) <> (x, y)) by (apply xy_neqb in Ec; congruence). rewrite <- S. split.
      * intros Hi. eapply Permutation_in; [symmetry; exact P|]. right. exact Hi.
      * intros Hi. eapply Permutation_in in Hi; [|exact P]. destruct Hi as [Hi|Hi]; [congruence|exact Hi].
Qed.

Lemma remove_loses t t' x y v : wf t -> find x y t = Ok v -> remove x y t = Ok t' -> ~ direct_at x y t ->
  exists a b w, (a, b) <> (x, y) /\ find a b t = Ok w /\ find a b t' = Throw E_general.
Proof.
  intros W Hf E D. destruct (remove_at_spec x y t true t' W E) as [W' H].
  unfold find in Hf. destruct (find_node x y t) as [|k cx cy cv ne nw se sw] eqn:En; [discriminate|].
  destruct H as (lost & P & L). destruct lost as [|[[a b] w] lost]; [exfalso; apply D, L; reflexivity|].
  pose proof (wf_nodup t W) as N. apply (Permutation_NoDup (perm_keys _ _ P)) in N.
  unfold keys in N. cbn [map] in N. inversion N as [|? ? N1 N2]; subst.
  rewrite map_app in N1, N2. apply nodup_app in N2. destruct N2 as (_ & _ & N2).
  exists a, b, w. split; [|split].
  - intros Eq. injection Eq as -> ->. apply N1. rewrite in_app_iff. right. left. reflexivity.
  - apply find_ok; auto. eapply Permutation_in; [symmetry; exact P|]. right. apply in_or_app. right. left. reflexivity.
  - apply find_none; auto. intros w' Hi. apply (N2 (a, b)); [|left; reflexivity].
    apply in_map_iff. exists (a, b, w'). auto.
Qed.

(** ** copies *)

Definition ins_all (l : list pt) t : qt V :=
  fold_left (fun a p => insert (fst (fst p)) (snd (fst p)) (snd p) a) l t.

Lemma ins_all_spec l : forall t, wf t -> NoDup (keys (stored t ++ l)) ->
  wf (ins_all l t) /\ Permutation (stored (ins_all l t)) (stored t ++ l) /\
  (linked t -> linked (ins_all l t)).
Proof.
  induction l as [|[[x y] v] l IH]; intros t W N.
  - cbn. rewrite app_nil_r. auto.
  - cbn [ins_all fold_left fst snd].
    assert (Fr : ~ In (x, y) (keys (stored t))).
    { rewrite keys_app in N. apply nodup_app in N. destruct N as (_ & _ & N).
      intros H. apply (N _ H). left. reflexivity. }
    destruct (insert_perm t x y v Fr) as [_ P].
    destruct (IH (insert x y v t)) as (W' & P' & L').
    + apply insert_wf, W.
    + eapply Permutation_NoDup; [|exact N]. apply perm_keys. rewrite P. perm.
    + split; [exact W'|]. split; [rewrite P', P; perm|]. intros L. apply L', insert_linked, L.
Qed.

Lemma copy_spec (r : qt V) : wf r -> wf (copy r) /\ Permutation (stored (copy r)) (stored r) /\ linked (copy r).
Proof.
  intros W. destruct (ins_all_spec (stored r) QE I) as (W' & P & L); [exact (wf_nodup r W)|].
  repeat split; auto. apply L. exact I.
Qed.

Lemma copy_shows (r : qt V) m : wf r -> shows r m -> shows (copy r) m.
Proof.
  intros W H. destruct (copy_spec r W) as (W' & P & _). rewrite shows_iff in * by assumption.
  intros x y v. rewrite <- H. split; intros Hi; eapply Permutation_in; try exact Hi; [exact P|symmetry; exact P].
Qed.

(** ** equality *)

Section Eq.
Variables (vlt veq : V -> V -> bool).

Definition kless (a b : pt) : Prop :=
  fst (fst a) < fst (fst b) \/ (fst (fst a) = fst (fst b) /\ snd (fst a) < snd (fst b)).

Lemma data_less_kless (a b : pt) : key a <> key b -> data_less vlt a b = true <-> kless a b.
Proof.
  destruct a as [[ax ay] av], b as [[bx by_] bv]. unfold key, data_less, kless. cbn [fst snd]. intros N.
  destruct (Z.eqb_spec ax bx) as [->|Nx]; cbn [negb].
  - destruct (Z.eqb_spec ay by_) as [->|Ny]; cbn [negb]; [congruence|].
    rewrite Z.ltb_lt. lia.
  - rewrite Z.ltb_lt. lia.
Qed.

Lemma kless_total (a b : pt) : key a <> key b -> kless a b \/ kless b a.
Proof.
  destruct a as [[ax ay] av], b as [[bx by_] bv]. unfold key, kless. cbn [fst snd]. intros N.
  destruct (Z.eq_dec ax bx), (Z.eq_dec ay by_); try lia. subst. congruence.
Qed.

Lemma sort_in_perm (a : pt) l : Permutation (sort_in vlt a l) (a :: l).
Proof.
  induction l as [|b l IH]; cbn [sort_in]; [reflexivity|].
  destruct (data_less vlt b a); [rewrite IH; apply perm_swap|reflexivity].
Qed.

Lemma sort_perm l : Permutation (sort_data vlt l) l.
Proof.
  unfold sort_data. induction l as [|a l IH]; cbn [fold_right]; [reflexivity|].
  rewrite sort_in_perm, IH. reflexivity.
Qed.

Lemma kless_trans (a b e : pt) : kless a b -> kless b e -> kless a e.
Proof. unfold kless. lia. Qed.

Lemma sort_in_sorted (a : pt) l : ~ In (key a) (keys l) -> StronglySorted kless l -> StronglySorted kless (sort_in vlt a l).
Proof.
  intros N. induction 1 as [|b l S IH F]; cbn [sort_in]; [repeat constructor|].
  assert (Nb : key b <> key a) by (intros E; apply N; left; exact E).
  destruct (data_less vlt b a) eqn:E.
  - apply data_less_kless in E; [|exact Nb]. constructor.
    + apply IH. intros H. apply N. right. exact H.
    + eapply perm_forall; [symmetry; apply sort_in_perm|]. constructor; assumption.
  - assert (K : kless a b).
    { destruct (kless_total a b) as [K|K]; [congruence|exact K|].
      apply data_less_kless in K; [congruence|exact Nb]. }
    constructor; [constructor; assumption|]. constructor; [exact K|].
    eapply Forall_impl; [|exact F]. intros e. apply kless_trans, K.
Qed.

Lemma sort_sorted l : NoDup (keys l) -> StronglySorted kless (sort_data vlt l).
Proof.
  unfold sort_data. induction l as [|a l IH]; intros N; cbn [fold_right]; [constructor|].
  unfold keys in N. cbn [map] in N. inversion N as [|? ? N1 N2]; subst.
  apply sort_in_sorted; [|apply IH, N2]. intros H. apply N1.
  eapply Permutation_in; [apply perm_keys, sort_perm|exact H].
Qed.

Lemma sorted_unique l : forall l', StronglySorted kless l -> StronglySorted kless l' -> Permutation l l' -> l = l'.
Proof.
  induction l as [|a l IH]; intros l' S S' P.
  - apply Permutation_nil in P. auto.
  - destruct l' as [|b l']; [apply Permutation_sym, Permutation_nil in P; discriminate|].
    inversion S as [|? ? S1 F1]; subst. inversion S' as [|? ? S2 F2]; subst.
    assert (a = b).
    { assert (Ha : In a (b :: l')) by (eapply Permutation_in; [exact P|left; reflexivity]).
      assert (Hb : In b (a :: l)) by (eapply Permutation_in; [symmetry; exact P|left; reflexivity]).
      destruct Ha as [Ha|Ha]; [auto|]. destruct Hb as [Hb|Hb]; [auto|].
      rewrite Forall_forall in F1, F2. apply F1 in Hb. apply F2 in Ha. unfold kless in *. lia. }
    subst b. f_equal. apply IH; auto. eapply Permutation_cons_inv; exact P.
Qed.

Hypothesis veq_ok : forall a b, veq a b = true <-> a = b.

Lemma eq_list_eq l : forall l', eq_list veq l l' = true <-> l = l'.
Proof.
  induction l as [|[[ax ay] av] l IH]; intros [|[[bx by_] bv] l']; cbn [eq_list data_eq]; try (split; congruence).
  destruct ((ax =? bx) && (ay =? by_) && veq av bv) eqn:E.
  - rewrite !andb_true_iff, !Z.eqb_eq, veq_ok in E. destruct E as [[-> ->] ->]. rewrite IH. split; congruence.
  - split; [discriminate|]. intros [= -> -> -> ->]. rewrite !Z.eqb_refl in E.
    rewrite (proj2 (veq_ok bv bv) eq_refl) in E. discriminate.
Qed.

Lemma equal_perm t (r : qt V) : wf t -> wf r -> equal vlt veq t r = true <-> Permutation (stored t) (stored r).
Proof.
  intros W Wr. unfold equal.
  destruct (Nat.eqb_spec (length (stored t)) (length (stored r))) as [El|El]; cbn [negb].
  - rewrite eq_list_eq. split.
    + intros E. rewrite <- (sort_perm (stored t)), <- (sort_perm (stored r)), E. reflexivity.
    + intros P. apply sorted_unique; [apply sort_sorted, wf_nodup, W|apply sort_sorted, wf_nodup, Wr|].
      rewrite !sort_perm. exact P.
  - split; [discriminate|]. intros P. apply Permutation_length in P. congruence.
Qed.

Lemma equal_content t (r : qt V) : wf t -> wf r ->
  equal vlt veq t r = true <-> (forall x y, find x y t = find x y r).
Proof.
  intros W Wr. rewrite equal_perm by assumption. split.
  - intros P x y. destruct (find_node_find x y r) as [E|(v & E)]; rewrite E.
    + apply find_none; auto. intros v Hi. eapply Permutation_in in Hi; [|exact P].
      apply find_ok in Hi; auto. congruence.
    + apply find_ok; auto. eapply Permutation_in; [symmetry; exact P|]. apply find_ok; auto.
  - intros H. apply NoDup_Permutation.
    + apply (NoDup_map_inv key). apply wf_nodup, W.
    + apply (NoDup_map_inv key). apply wf_nodup, Wr.
    + intros [[x y] v]. rewrite <- !find_ok by assumption. rewrite H. reflexivity.
Qed.
End Eq.

(** ** histories *)

Lemma step_wf t o t' : wf t -> step t o = Ok t' -> wf t'.
Proof.
  intros W E. destruct o; cbn [step] in E.
  - injection E as <-. apply insert_wf, W.
  - apply remove_sub in E; tauto.
  - injection E as <-. exact I.
  - injection E as <-. apply copy_spec, W.
Qed.

Lemma run_wf os : forall t t', wf t -> run t os = Ok t' -> wf t'.
Proof.
  induction os as [|o os IH]; intros t t' W E; cbn [run] in E.
  - injection E as <-. exact W.
  - destruct (step t o) as [t1| |] eqn:E1; try discriminate. cbn [bind] in E.
    apply (IH t1); auto. eapply step_wf; eauto.
Qed.

(** every remove() of the history meets a node whose replacement is its child,
    a node without children, or no node *)
Fixpoint all_direct t (os : list (op V)) : Prop :=
  match os with
  | [] => True
  | o :: r =>
      match o with ORemove x y => direct_at x y t | _ => True end /\
      (forall t', step t o = Ok t' -> all_direct t' r)
  end.

(** every remove() of the history meets a node without children, or no node *)
Fixpoint all_leaf t (os : list (op V)) : Prop :=
  match os with
  | [] => True
  | o :: r =>
      match o with ORemove x y => find x y t = Throw E_general \/ leaf_at x y t | _ => True end /\
      (forall t', step t o = Ok t' -> all_leaf t' r)
  end.

Lemma ideal_ext os : forall m m' : content V, (forall x y, m x y = m' x y) -> forall x y, ideal m os x y = ideal m' os x y.
Proof.
  induction os as [|o os IH]; intros m m' H x y; cbn [ideal]; [apply H|].
  destruct o; apply IH; auto; intros a b; unfold put, drop; rewrite H; reflexivity.
Qed.

Lemma run_shows os : forall t t' m, wf t -> shows t m -> run t os = Ok t' -> all_direct t os ->
  shows t' (ideal m os).
Proof.
  induction os as [|o os IH]; intros t t' m W S E D; cbn [run] in E.
  - injection E as <-. exact S.
  - destruct (step t o) as [t1| |] eqn:E1; try discriminate. cbn [bind] in E.
    destruct D as [D1 D2]. pose proof (step_wf _ _ _ W E1) as W1. specialize (D2 _ E1).
    destruct o; cbn [step ideal] in *.
    + injection E1 as <-. apply (IH _ _ _ W1 (insert_shows _ _ x y v W S) E D2).
    + apply (IH _ _ _ W1 (remove_shows _ _ _ _ _ W S E1 D1) E D2).
    + injection E1 as <-. refine (IH _ _ _ W1 _ E D2). intros a b. reflexivity.
    + injection E1 as <-. apply (IH _ _ _ W1 (copy_shows _ _ W S) E D2).
Qed.

Lemma absent_node x y t : find x y t = Throw E_general -> find_node x y t = QE.
Proof. unfold find. destruct (find_node x y t); [reflexivity|discriminate]. Qed.

Lemma leaf_run os : forall t, wf t -> linked_below t -> all_leaf t os ->
  exists t', run t os = Ok t' /\ linked_below t' /\ all_direct t os.
Proof.
  induction os as [|o os IH]; intros t W L A.
  - exists t. cbn. auto.
  - destruct A as [A1 A2]. cbn [run].
    assert (S : exists t1, step t o = Ok t1 /\ linked_below t1 /\
       match o with ORemove x y => direct_at x y t | _ => True end).
    { destruct o; cbn [step].
      - eexists. split; [reflexivity|]. split; [apply insert_linked_below, L|exact I].
      - assert (H : find_node x y t = QE \/ leaf_at x y t) by (destruct A1; auto using absent_node).
        destruct (remove_at_total x y t true W ltac:(discriminate) L) as (t1 & E).
        exists t1. split; [exact E|]. split; [eapply remove_at_leaf; eauto|].
        destruct H; auto using absent_direct, leaf_direct.
      - eexists. split; [reflexivity|]. split; [intros [| | |]; exact I|exact I].
      - eexists. split; [reflexivity|]. split; [apply linked_to_below, copy_spec, W|exact I]. }
    destruct S as (t1 & E1 & L1 & D1). rewrite E1. cbn [bind].
    destruct (IH t1 (step_wf _ _ _ W E1) L1 (A2 _ E1)) as (t' & E' & L' & D').
    exists t'. split; [exact E'|]. split; [exact L'|]. cbn [all_direct]. split; [exact D1|].
    intros t2 E2. rewrite E1 in E2. injection E2 as <-. exact D'.
Qed.

Lemma no_remove_leaf os : no_remove os -> forall t, all_leaf t os.
Proof.
  induction 1 as [|o os H F IH]; intros t; cbn [all_leaf]; [exact I|].
  split; [destruct o; auto; contradiction|]. intros t' _. apply IH.
Qed.

End P.
