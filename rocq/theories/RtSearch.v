(** Searches, size, extent, fill and integrity of well-shaped trees. *)

From Coq Require Import List ZArith Lia Bool Permutation.
From Verif Require Import Base RtModel RtSpec RtBox RtPerm RtTree RtShape.
Import ListNotations.
Open Scope nat_scope.

Section S.
Context {V : Type}.
Implicit Types (n k t : nd V) (ks l : list (nd V)).

Lemma contents_entries n : contents n = entries n.
Proof.
  induction n as [a p b v|a p lf b c ok ks IH] using nd_ind2; [reflexivity|]. cbn [contents entries].
  induction IH as [|k ks Hk Hks IHk]; cbn [flat_map]; [reflexivity|]. now rewrite Hk, IHk.
Qed.

Lemma enclosing_in n : enclosing n -> Forall (fun e => inside (fst e) (nbox n)) (entries n).
Proof.
  induction n as [a p b v|a p lf b c ok ks IH] using nd_ind2; intros H.
  - constructor; [apply inside_refl|constructor].
  - inversion H as [|? ? ? ? ? ? ? Hb He]; subst. cbn [entries nbox].
    rewrite Forall_forall in *. intros e He'. apply in_flat_map in He'. destruct He' as (k & Hk & Hke).
    specialize (IH k Hk (He k Hk)). rewrite Forall_forall in IH. specialize (IH e Hke).
    eapply inside_trans; [exact IH|]. exact (Hb k Hk).
Qed.

Lemma filter_false {A} (f : A -> bool) (l : list A) : (forall x, In x l -> f x = false) -> filter f l = [].
Proof.
  induction l as [|x l IH]; intros H; [reflexivity|]. cbn [filter]. rewrite (H x (or_introl eq_refl)).
  apply IH. intros y Hy. apply H. now right.
Qed.

Lemma filter_flat {A B} (f : B -> bool) (g : A -> list B) (l : list A) :
  filter f (flat_map g l) = flat_map (fun x => filter f (g x)) l.
Proof. induction l as [|x l IH]; cbn [flat_map]; [reflexivity|]. now rewrite filter_app, IH. Qed.

Lemma map_flat {A B E} (f : B -> E) (g : A -> list B) (l : list A) :
  map f (flat_map g l) = flat_map (fun x => map f (g x)) l.
Proof. induction l as [|x l IH]; cbn [flat_map]; [reflexivity|]. now rewrite map_app, IH. Qed.

Lemma flat_map_in {A B} (f g : A -> list B) (l : list A) : (forall x, In x l -> f x = g x) ->
  flat_map f l = flat_map g l.
Proof.
  induction l as [|x l IH]; intros H; [reflexivity|]. cbn [flat_map]. rewrite (H x (or_introl eq_refl)), IH; [reflexivity|].
  intros y Hy. apply H. now right.
Qed.

(** Pruning loses nothing when the test on directories is implied by the one on values *)
Lemma search_descend_exact (dc vc : box -> bool) (G : box -> Prop) n d : enclosing n ->
  Forall (fun e => G (fst e)) (entries n) ->
  (forall b B, G b -> vc b = true -> inside b B -> dc B = true) ->
  found (search_descend dc vc d n) = filter (fun e => vc (fst e)) (entries n).
Proof.
  intros He Hg Hm. revert d He Hg. induction n as [a p b v|a p lf b c ok ks IH] using nd_ind2; intros d He Hg.
  - cbn [search_descend entries filter fst]. destruct (vc b); reflexivity.
  - pose proof (enclosing_in _ He) as Hin. cbn [nbox] in Hin.
    inversion He as [|? ? ? ? ? ? ? Hb Hk]; subst. cbn [search_descend].
    destruct (dc b) eqn:E.
    + cbn [entries]. rewrite filter_flat. unfold found. rewrite map_flat. apply flat_map_in. intros k Ik.
      rewrite Forall_forall in *. apply (IH k Ik); [auto|]. rewrite Forall_forall in *. intros e Ie.
      apply Hg. cbn [entries]. apply in_flat_map. eauto.
    + symmetry. apply filter_false. intros e Ie. rewrite Forall_forall in Hin, Hg.
      destruct (vc (fst e)) eqn:Ev; [|reflexivity]. rewrite <- E. symmetry. eapply Hm; eauto.
Qed.

(** A result names a value of the tree *)
Lemma search_descend_in (dc vc : box -> bool) n d a dd b v :
  In (a, dd, b, v) (search_descend dc vc d n) -> exists p, In a (addrs n) /\ In (b, v) (entries n) /\
    (NoDup (addrs n) -> get a n = Some (NV a p b v)).
Proof.
  revert d. induction n as [a0 p0 b0 v0|a0 p0 lf b0 c ok ks IH] using nd_ind2; intros d H; cbn [search_descend] in H.
  - destruct (vc b0); [|destruct H]. destruct H as [H|[]]. injection H as -> -> -> ->.
    exists p0. split; [now left|]. split; [now left|]. intros _. cbn [get]. now rewrite Nat.eqb_refl.
  - destruct (dc b0); [|destruct H]. apply in_flat_map in H. destruct H as (k & Ik & Hk).
    rewrite Forall_forall in IH. destruct (IH k Ik _ Hk) as (p & I1 & I2 & I3). exists p.
    split; [cbn [addrs]; right; apply in_flat_map; eauto|].
    split; [cbn [entries]; apply in_flat_map; eauto|]. intros N.
    apply in_split in Ik. destruct Ik as (l1 & l2 & ->).
    assert (Nk : NoDup (addrs k)).
    { cbn [addrs] in N. inversion N; subst. rewrite flat_map_app in H2. cbn [flat_map] in H2.
      assert (G : forall l1 l2 l3 : list nat, NoDup (l1 ++ l2 ++ l3) -> NoDup l2).
      { clear. induction l1 as [|x l1 IH]; intros l2 l3 H; [|inversion H; subst; eauto]. cbn [app] in H.
        induction l2 as [|y l2 IH2]; [constructor|]. cbn [app] in H. inversion H; subst. constructor; auto.
        intros Hy. apply H2. apply in_or_app. now left. }
      eauto. }
    specialize (I3 Nk).
    assert (Hn : a <> a0 /\ ~ In a (flat_map addrs l1)).
    { cbn [addrs] in N. inversion N; subst. rewrite flat_map_app in *. cbn [flat_map] in *. split.
      - intros ->. apply H1. apply in_or_app. right. apply in_or_app. now left.
      - intros Hi. clear - H2 Hi I1. induction (flat_map addrs l1) as [|x l IH]; [destruct Hi|].
        cbn [app] in H2. inversion H2; subst. destruct Hi as [->|Hi]; [|auto].
        apply H1. apply in_or_app. right. apply in_or_app. now left. }
    destruct Hn as [Hn1 Hn2]. cbn [get na]. destruct (Nat.eqb_spec a0 a); [congruence|].
    clear - I3 Hn2. induction l1 as [|k1 l1 IH]; cbn [app].
    + now rewrite I3.
    + cbn [flat_map] in Hn2. rewrite get_notin by (intros Hi; apply Hn2, in_or_app; now left).
      apply IH. intros Hi. apply Hn2, in_or_app. now right.
Qed.

Lemma nvals_entries n : nvals n = length (entries n).
Proof.
  induction n as [a p b v|a p lf b c ok ks IH] using nd_ind2; [reflexivity|]. cbn [nvals entries].
  induction IH as [|k ks Hk Hks IHk]; cbn [flat_map map]; [reflexivity|].
  rewrite app_length. cbn [list_sum fold_right]. unfold list_sum in IHk. now rewrite Hk, IHk.
Qed.

Variable C : cfg.
Variable tg : bool.
Variable kl : nat.
Notation shape := (shape C tg kl).
Notation kid h := (shape h kl (mx C)).

Lemma shape_enclosing h : forall n lo hi, shape h lo hi n -> enclosing n.
Proof.
  induction h as [|h IH]; intros [a p b v|a p lf b c ok ks] lo hi H; cbn [RtShape.shape] in H; try contradiction;
    [constructor|]. destruct H as (_ & _ & _ & F & K). constructor.
  - apply (proj1 (Forall_map nbox (fun x => inside x b) ks)). eapply fit_inside; [|exact F]. eapply shape_boxes; eauto.
  - eapply Forall_impl; [|exact K]. intros k Hk. eapply IH; eauto.
Qed.

Lemma shape_depths h : forall n lo hi d, shape h lo hi n -> Forall (fun x => x = d + h) (value_depths d n).
Proof.
  induction h as [|h IH]; intros [a p b v|a p lf b c ok ks] lo hi d H; cbn [RtShape.shape] in H; try contradiction;
    cbn [value_depths]; [constructor; [lia|constructor]|]. destruct H as (_ & _ & _ & _ & K).
  rewrite Forall_forall in *. intros x Hx. apply in_flat_map in Hx. destruct Hx as (k & Ik & Hk).
  specialize (IH k kl (mx C) (S d) (K k Ik)). rewrite Forall_forall in IH. rewrite (IH x Hk). lia.
Qed.

Lemma shape_fills h : forall n lo hi, shape h lo hi n -> Forall (fun x => kl <= x <= mx C) (fills_below n).
Proof.
  induction h as [|h IH]; intros [a p b v|a p lf b c ok ks] lo hi H; cbn [RtShape.shape] in H; try contradiction;
    cbn [fills_below]; [constructor|]. destruct H as (_ & _ & _ & _ & K).
  rewrite Forall_forall in *. intros x Hx. apply in_flat_map in Hx. destruct Hx as (k & Ik & Hk).
  specialize (K k Ik). apply in_app_or in Hk. destruct Hk as [Hk|Hk].
  - destruct h as [|h], k as [|a' p' lf' b' c' ok' ks']; cbn [RtShape.shape is_dir] in *; try contradiction.
    destruct Hk as [<-|[]]. cbn [nkids]. lia.
  - specialize (IH k _ _ K). rewrite Forall_forall in IH. auto.
Qed.

Hypothesis kl1 : 1 <= kl.

Lemma entries_nonempty h : forall n lo hi, shape h lo hi n -> (h = 0 \/ 1 <= lo) -> entries n <> [].
Proof.
  induction h as [|h IH]; intros [a p b v|a p lf b c ok ks] lo hi H Hl; cbn [RtShape.shape] in H; try contradiction;
    cbn [entries]; [discriminate|]. destruct H as (_ & _ & Hc & _ & K).
  destruct ks as [|k ks]; [cbn [length] in Hc; lia|]. cbn [flat_map]. inversion K; subst.
  intros E. apply app_eq_nil in E. destruct E as [E _]. revert E. eapply IH; [eassumption|].
  right. exact kl1.
Qed.

Lemma tight_least h : tg = true -> forall n lo hi X, shape h lo hi n -> entries n <> [] ->
  Forall (fun e => inside (fst e) X) (entries n) -> inside (nbox n) X.
Proof.
  intros Etg. induction h as [|h IH]; intros [a p b v|a p lf b c ok ks] lo hi X H N Hi; cbn [RtShape.shape] in H; try contradiction.
  - cbn [entries nbox] in *. inversion Hi; subst. auto.
  - destruct H as (_ & _ & Hc & [_ F] & K). rewrite Etg in F. cbn [nbox]. subst b.
    apply hull_least.
    + destruct ks; [exfalso; apply N; reflexivity|discriminate].
    + rewrite Forall_map. cbn [entries] in Hi. rewrite Forall_forall in *. intros k Ik.
      apply (IH k kl (mx C)); [auto| |].
      * eapply entries_nonempty; [apply K, Ik|]. right. exact kl1.
      * rewrite Forall_forall. intros e He. apply Hi. apply in_flat_map. eauto.
Qed.

Lemma check_node_kid h : tg = true -> mn C <= kl -> forall pa pp plf pb pc pok pks n lo hi,
  shape h lo hi n -> lk n -> npar n = Some pa -> mn C <= lo \/ h = 0 -> hi <= mx C ->
  plf = Nat.eqb h 0 -> length pb = dims C -> inside (nbox n) pb ->
  forall emin, check_node C emin (Some (ND pa pp plf pb pc pok pks)) n = true.
Proof.
  intros Etg Ekl. induction h as [|h IH]; intros pa pp plf pb pc pok pks [a p b v|a p lf b c ok ks] lo hi Hs Hl Hp Hlo Hhi Elf Lb Hin emin;
    cbn [RtShape.shape] in Hs; try contradiction; cbn [check_node is_dir npar] in *; rewrite Hp, Nat.eqb_refl.
  - cbn [nbox] in *. rewrite (proj2 (contains_inside pb b ltac:(cbn [nbox] in *; congruence)) Hin). rewrite Elf. reflexivity.
  - destruct Hs as (-> & -> & Hc & F & K). cbn [nbox] in *.
    rewrite (proj2 (contains_inside pb b ltac:(rewrite (fit_length _ _ _ _ F); auto)) Hin). rewrite Elf. cbn [andb negb].
    rewrite Nat.eqb_refl. rewrite (proj2 (Nat.leb_le (mn C) (length ks)) ltac:(lia)).
    rewrite (proj2 (Nat.leb_le (length ks) (mx C)) ltac:(lia)). rewrite !orb_true_r. cbn [andb].
    pose proof F as [F1 F2]. rewrite Etg in F2. rewrite (proj2 (box_eqb_eq _ _) (eq_sym F2)). cbn [andb].
    apply forallb_forall. intros k Ik. apply lk_dir in Hl.
    pose proof (fit_inside _ _ _ _ (shape_boxes C tg kl _ _ _ _ K) F) as Fi. rewrite Forall_map in Fi.
    rewrite Forall_forall in *. destruct (Hl k Ik) as [Hl1 Hl2].
    eapply (IH a (Some pa) (Nat.eqb h 0) b (length ks) ok ks k kl (mx C)); auto.
Qed.

Variable rl : nat.
Notation tshape := (tshape C tg rl kl).

Lemma check_ok h n (x : addr) emin : tg = true -> mn C <= kl -> tshape h n -> lk n -> npar n = None ->
  (emin = false \/ mn C <= rl) -> check_integrity C emin (ST n x) = true.
Proof.
  intros Etg Ekl [Hh Hs] Hl Hp Hm. unfold check_integrity. cbn [root].
  destruct h as [|h]; [lia|]. destruct n as [|a p lf b c ok ks]; [contradiction|]. cbn [npar] in Hp. subst p.
  cbn [RtShape.shape] in Hs. destruct Hs as (-> & -> & Hc & F & K). cbn [check_node].
  rewrite Nat.eqb_refl, (proj2 (Nat.leb_le (length ks) (mx C)) ltac:(lia)). cbn [andb].
  pose proof F as [F1 F2]. rewrite Etg in F2. rewrite (proj2 (box_eqb_eq _ _) (eq_sym F2)).
  assert (E : Nat.eqb h 0 || negb emin || Nat.leb (mn C) (length ks) = true).
  { destruct Hm as [->|Hm]; [now rewrite orb_true_r|]. unfold rootlo in Hc.
    destruct (Nat.eqb_spec (S h) 1) as [E1|E1]; destruct (Nat.eqb_spec h 0); try lia; try reflexivity.
    rewrite (proj2 (Nat.leb_le (mn C) (length ks)) ltac:(lia)). now rewrite orb_true_r. }
  rewrite E. cbn [andb]. apply forallb_forall. intros k Ik. apply lk_dir in Hl.
  pose proof (fit_inside _ _ _ _ (shape_boxes C tg kl _ _ _ _ K) F) as Fi. rewrite Forall_map in Fi.
  rewrite Forall_forall in *. destruct (Hl k Ik) as [Hl1 Hl2].
  eapply (check_node_kid h Etg Ekl a None (Nat.eqb h 0) b (length ks) ok ks k kl (mx C)); auto.
Qed.

End S.
