(** C92: what check_integrity of rtree accepts, and what a tree it accepts answers. *)

From Coq Require Import List ZArith Lia Bool Permutation.
From Verif Require Import Base RtModel RtSpec RtBox RtTree RtSearch RtObs RtProps RtProps2.
Import ListNotations.
Open Scope nat_scope.

(** ** Specification *)
(** [d] is the node [r] or one below it *)
Inductive within {V} (r : nd V) : nd V -> Prop :=
| within_self : within r r
| within_kid d k : within r d -> In k (nkids d) -> within r k.

(** The conditions on one directory: its counter is right and not above the maximum, nor below
    the minimum when that is asked for, unless it is a leaf without parent; its box is the
    smallest around those of its children, at the origin when there are none; its children
    point back at it, are enclosed by it, and are values exactly in a leaf *)
Definition good_dir {V} (C : cfg) (emin : bool) (d : nd V) : Prop :=
  ncnt d = length (nkids d) /\ ncnt d <= mx C /\
  (emin = true -> mn C <= ncnt d \/ (npar d = None /\ is_leaf d = true)) /\
  (nkids d = [] -> nbox d = repeat (0, 0)%Z (dims C)) /\
  (nkids d <> [] -> smallest_around (nbox d) (map nbox (nkids d))) /\
  (forall k, In k (nkids d) -> npar k = Some (na d) /\ box_in (nbox k) (nbox d) /\ (is_dir k = true <-> is_leaf d = false)).

(** The whole tree *)
Definition consistent {V} (C : cfg) (emin : bool) (s : st V) : Prop :=
  is_dir (root s) = true /\ npar (root s) = None /\
  (forall d, within (root s) d -> is_dir d = true -> good_dir C emin d).

(** ** Proofs *)
Lemma within_iff {V} (r d : nd V) : within r d <-> d = r \/ exists k, In k (nkids r) /\ within k d.
Proof.
  split.
  - induction 1 as [|d k W IH I]; [now left|]. right. destruct IH as [->|(k' & I' & W')].
    + exists k. split; [exact I|constructor].
    + exists k'. split; [exact I'|]. econstructor; eauto.
  - intros [->|(k & I & W)]; [constructor|]. induction W as [|d k' W IH I']; [econstructor; [constructor|exact I]|].
    econstructor; eauto.
Qed.

Lemma box_in_antisym a b : box_in a b -> box_in b a -> a = b.
Proof.
  intros H. induction H as [|[s e] [s' e'] a b H1 H IH]; intros K; inversion K; subst; [reflexivity|]. cbn [fst snd] in *.
  f_equal; [f_equal; lia|auto].
Qed.
Lemma hull_smallest D l : l <> [] -> Forall (fun b => length b = D) l -> smallest_around (hull D l) l.
Proof.
  intros N F X. split.
  - intros H. pose proof (hull_inside D l F) as G. eapply Forall_impl; [|exact G]. intros b Hb. exact (inside_trans _ _ _ Hb H).
  - intros H. now apply hull_least.
Qed.
Lemma smallest_unique B B' l : smallest_around B l -> smallest_around B' l -> B = B'.
Proof.
  intros H H'. apply box_in_antisym.
  - apply H, H', inside_refl.
  - apply H', H, inside_refl.
Qed.

Section S.
Context {V : Type}.
Variable C : cfg.
Variable emin : bool.
Notation lenD b := (length b = dims C).

(** The link from child to parent as it is tested *)
Definition linked (d k : nd V) : Prop :=
  npar k = Some (na d) /\ contains (nbox d) (nbox k) = true /\ (is_dir k = true <-> is_leaf d = false).
Definition tested (d : nd V) : Prop :=
  is_dir d = true ->
  ncnt d = length (nkids d) /\ (emin = true -> mn C <= ncnt d \/ (npar d = None /\ is_leaf d = true)) /\ ncnt d <= mx C /\
  hull (dims C) (map nbox (nkids d)) = nbox d /\ (forall k, In k (nkids d) -> linked d k).

Lemma check_node_iff (n : nd V) : forall par,
  check_node C emin par n = true <->
  match par with None => True | Some d => is_dir d = true /\ linked d n end /\ (forall d, within n d -> tested d).
Proof.
  induction n as [a p b v|a p lf b c ok ks IH] using nd_ind2; intros par.
  - cbn [check_node]. rewrite andb_true_iff.
    assert (W : forall d, within (NV a p b v) d -> tested d).
    { intros d H. apply within_iff in H. destruct H as [->|(k & [] & _)]. intros H. discriminate H. }
    destruct par as [[?|pa pp plf pb pc pok pks]|]; cbn [is_dir npar nbox].
    + split; [intros [H _]; discriminate H|intros [[H _] _]; discriminate H].
    + rewrite !andb_true_iff. unfold linked. cbn [npar nbox na is_dir is_leaf].
      assert (E : match p with Some q => Nat.eqb q pa | None => false end = true <-> p = Some pa).
      { destruct p as [q|]; [rewrite Nat.eqb_eq; split; congruence|split; discriminate]. }
      rewrite E. destruct plf; intuition congruence.
    + intuition.
  - cbn [check_node]. rewrite andb_true_iff.
    assert (K : (Nat.eqb c (length ks) && (match p with None => lf | Some _ => false end || negb emin || Nat.leb (mn C) c) &&
       Nat.leb c (mx C) && box_eqb (hull (dims C) (map nbox ks)) b && forallb (check_node C emin (Some (ND a p lf b c ok ks))) ks = true) <->
       (forall d, within (ND a p lf b c ok ks) d -> tested d)).
    { rewrite !andb_true_iff, Nat.eqb_eq, Nat.leb_le, box_eqb_eq, forallb_forall, !orb_true_iff, Nat.leb_le, negb_true_iff.
      rewrite Forall_forall in IH. split.
      - intros ((((H1 & H2) & H3) & H4) & H5) d W. apply within_iff in W. destruct W as [->|(k & I & W)].
        + intros _. cbn [ncnt nkids npar is_leaf nbox]. split; [exact H1|]. split.
          * intros ->. destruct H2 as [[H2|H2]|H2]; [right|discriminate|now left]. destruct p; [discriminate|]. now rewrite H2.
          * split; [exact H3|]. split; [exact H4|]. intros k I. specialize (H5 k I). apply (IH k I) in H5. exact (proj2 (proj1 H5)).
        + specialize (H5 k I). apply (IH k I) in H5. destruct H5 as [_ H5]. now apply H5.
      - intros H. destruct (H _ (within_self _) eq_refl) as (H1 & H2 & H3 & H4 & H5). cbn [ncnt nkids npar is_leaf nbox] in *.
        split; [split; [split; [split; [exact H1|]|exact H3]|exact H4]|].
        + destruct emin; [|left; now right]. destruct (H2 eq_refl) as [G|[G1 G2]]; [now right|]. left. left. now rewrite G1.
        + intros k I. apply (IH k I). split; [split; [reflexivity|now apply H5]|].
          intros d W. apply H. apply within_iff. right. exists k. now split. }
    rewrite K. clear K. destruct par as [[?|pa pp plf pb pc pok pks]|]; cbn [npar nbox].
    + split; [intros [H _]; discriminate H|intros [[H _] _]; discriminate H].
    + rewrite !andb_true_iff. unfold linked at 1. cbn [npar nbox na is_dir is_leaf].
      assert (E : match p with Some q => Nat.eqb q pa | None => false end = true <-> p = Some pa).
      { destruct p as [q|]; [rewrite Nat.eqb_eq; split; congruence|split; discriminate]. }
      rewrite E. destruct plf; cbn [negb]; intuition congruence.
    + intuition.
Qed.

Lemma tested_lengths (n : nd V) : (forall d, within n d -> tested d) -> Forall (fun e => lenD (fst e)) (contents n) -> lenD (nbox n).
Proof.
  induction n as [a p b v|a p lf b c ok ks IH] using nd_ind2; intros H F.
  - now inversion F.
  - destruct (H _ (within_self _) eq_refl) as (_ & _ & _ & E & _). cbn [nkids nbox] in *. rewrite <- E. apply hull_length.
    apply Forall_map. rewrite Forall_forall in *. intros k I. apply (IH k I).
    + intros d W. apply H, within_iff. right. now exists k.
    + rewrite Forall_forall. intros e Ie. apply F. cbn [contents]. apply in_flat_map. now exists k.
Qed.
Lemma good_lengths (n : nd V) : (forall d, within n d -> is_dir d = true -> good_dir C emin d) ->
  Forall (fun e => lenD (fst e)) (contents n) -> lenD (nbox n).
Proof.
  induction n as [a p b v|a p lf b c ok ks IH] using nd_ind2; intros H F.
  - now inversion F.
  - destruct (H _ (within_self _) eq_refl) as (_ & _ & _ & E & _ & L). cbn [nkids nbox] in *.
    destruct ks as [|k ks]; [rewrite E by reflexivity; apply repeat_length|].
    destruct (L k (or_introl eq_refl)) as (_ & B & _). rewrite <- (inside_length _ _ B).
    inversion IH as [|? ? Hk _]; subst. apply Hk.
    + intros d W. apply H, within_iff. right. exists k. split; [now left|exact W].
    + cbn [contents flat_map] in F. apply Forall_app in F. apply F.
Qed.
Lemma within_contents (r d : nd V) : within r d -> forall e, In e (contents d) -> In e (contents r).
Proof.
  induction 1 as [|d k W IH I]; intros e Ie; [exact Ie|]. apply IH. destruct d as [|a p lf b c ok ks]; [destruct I|].
  cbn [contents nkids] in *. apply in_flat_map. now exists k.
Qed.
Lemma within_trans (r d e : nd V) : within r d -> within d e -> within r e.
Proof. intros W. induction 1 as [|x k _ IH I]; [exact W|]. econstructor; eauto. Qed.

Lemma tested_good (r : nd V) : Forall (fun e => lenD (fst e)) (contents r) ->
  ((forall d, within r d -> tested d) <-> (forall d, within r d -> is_dir d = true -> good_dir C emin d)).
Proof.
  intros F. rewrite Forall_forall in F.
  assert (FF : forall d, within r d -> Forall (fun e => lenD (fst e)) (contents d)).
  { intros d W. rewrite Forall_forall. intros e Ie. apply F. eapply within_contents; eauto. }
  split.
  - intros H d W Id. destruct (H d W Id) as (H1 & H2 & H3 & H4 & H5).
    assert (L : Forall (fun b => lenD b) (map nbox (nkids d))).
    { apply Forall_map. rewrite Forall_forall. intros k I. apply tested_lengths.
      - intros x Wx. apply H. eapply within_trans; [|exact Wx]. econstructor; eauto.
      - apply FF. econstructor; eauto. }
    split; [exact H1|]. split; [exact H3|]. split; [exact H2|]. split; [|split].
    + intros N. rewrite <- H4, N. reflexivity.
    + intros N. rewrite <- H4. apply hull_smallest; [|exact L]. destruct (nkids d); [congruence|discriminate].
    + intros k I. destruct (H5 k I) as (G1 & G2 & G3). split; [exact G1|]. split; [|exact G3].
      apply contains_inside; [|exact G2]. rewrite Forall_map, Forall_forall in L. rewrite (L k I), <- H4. apply hull_length.
      apply Forall_map. rewrite Forall_forall. exact L.
  - intros H d W Id. destruct (H d W Id) as (H1 & H3 & H2 & H4 & H4' & H5).
    assert (L : Forall (fun b => lenD b) (map nbox (nkids d))).
    { apply Forall_map. rewrite Forall_forall. intros k I. apply good_lengths.
      - intros x Wx. apply H. eapply within_trans; [|exact Wx]. econstructor; eauto.
      - apply FF. econstructor; eauto. }
    split; [exact H1|]. split; [exact H2|]. split; [exact H3|]. split.
    + destruct (nkids d) as [|k ks] eqn:N; [rewrite H4 by reflexivity; reflexivity|].
      eapply smallest_unique; [|apply H4'; discriminate]. apply hull_smallest; [discriminate|exact L].
    + intros k I. destruct (H5 k I) as (G1 & G2 & G3). split; [exact G1|]. split; [|exact G3].
      apply contains_inside; [|exact G2]. symmetry. exact (inside_length _ _ G2).
Qed.

Lemma good_enclosing (r : nd V) : (forall d, within r d -> is_dir d = true -> good_dir C emin d) -> enclosing r.
Proof.
  induction r as [a p b v|a p lf b c ok ks IH] using nd_ind2; intros H; [constructor|].
  destruct (H _ (within_self _) eq_refl) as (_ & _ & _ & _ & _ & L). cbn [nkids nbox] in *. rewrite Forall_forall in IH. constructor.
  - rewrite Forall_forall. intros k I. apply (L k I).
  - rewrite Forall_forall. intros k I. apply (IH k I). intros d W. apply H, within_iff. right. now exists k.
Qed.

Lemma good_smallest (n : nd V) : emin = true -> 1 <= mn C -> (forall d, within n d -> is_dir d = true -> good_dir C emin d) ->
  (is_dir n = true -> nkids n <> []) -> smallest_around (nbox n) (map fst (contents n)).
Proof.
  intros Em M. induction n as [a p b v|a p lf b c ok ks IH] using nd_ind2; intros H N X.
  - cbn [contents map fst nbox]. split; [intros G; constructor; [exact G|constructor]|intros G; now inversion G].
  - destruct (H _ (within_self _) eq_refl) as (_ & _ & _ & _ & B & L). cbn [nkids nbox] in *. rewrite (B (N eq_refl) X).
    cbn [contents]. rewrite Forall_forall in IH.
    assert (K : forall k, In k ks -> smallest_around (nbox k) (map fst (contents k))).
    { intros k I. apply (IH k I).
      - intros d W. apply H, within_iff. right. now exists k.
      - intros Dk Nk. assert (Wk : within (ND a p lf b c ok ks) k) by (apply within_iff; right; exists k; split; [exact I|constructor]).
        destruct (H k Wk Dk) as (C1 & _ & C3 & _).
        destruct (C3 Em) as [G|[G _]]; [rewrite C1, Nk in G; cbn [length] in G; lia|].
        destruct (L k I) as [P _]. congruence. }
    rewrite !Forall_forall. split.
    + intros G e Ie. apply in_map_iff in Ie. destruct Ie as (e' & <- & Ie). apply in_flat_map in Ie. destruct Ie as (k & I & Ie).
      assert (Gk : box_in (nbox k) X) by (apply G, in_map, I). apply (K k I) in Gk. rewrite Forall_forall in Gk. apply Gk, in_map, Ie.
    + intros G bk Ib. apply in_map_iff in Ib. destruct Ib as (k & <- & I). apply (K k I). rewrite Forall_forall. intros e Ie. apply G.
      apply in_map_iff in Ie. destruct Ie as (e' & <- & Ie). apply in_map, in_flat_map. now exists k.
Qed.
End S.

(** ** Theorems *)
(** The check succeeds exactly for the trees that satisfy the specification *)
Theorem C92_accepts : forall (V : Type) (C : cfg) emin (s : st V), Forall (fun e => length (fst e) = dims C) (contents (root s)) ->
  (check_integrity C emin s = true <-> consistent C emin s).
Proof.
  intros V C emin s F. unfold consistent. rewrite <- (tested_good C emin (root s) F). unfold check_integrity.
  destruct (root s) as [|a p lf b c ok ks] eqn:E; [split; [discriminate|intros [H _]; discriminate H]|].
  destruct p as [q|]; [split; [discriminate|intros (_ & H & _); discriminate H]|].
  rewrite check_node_iff. cbn [is_dir npar]. intuition.
Qed.

(** Whatever calls led to it, a tree that passes the check answers every search correctly *)
Theorem C92_searches : forall (V : Type) (C : cfg) emin (s : st V), Forall (fun e => length (fst e) = dims C) (contents (root s)) ->
  check_integrity C emin s = true ->
  size s = length (contents (root s)) /\
  (forall q, length q = dims C -> box_ok q -> Forall (fun e => box_ok (fst e)) (contents (root s)) ->
     selects (fun e => boxes_meet q (fst e)) (found (search_overlap q s)) (contents (root s))) /\
  (forall q, selects (fun e => fst e = q) (found (search_match q s)) (contents (root s))) /\
  (forall p, length p = dims C -> selects (fun e => point_in p (fst e)) (found (search_pt_overlap p s)) (contents (root s))) /\
  (forall p, selects (fun e => fst e = point_box p) (found (search_pt_match p s)) (contents (root s))).
Proof.
  intros V C emin s F H. apply C92_accepts in H; [|exact F]. destruct H as (_ & _ & H). pose proof (good_enclosing C emin _ H) as E.
  split; [unfold size; rewrite contents_entries; apply nvals_entries|].
  split; [intros q Lq Pq Po; apply overlap_selects; [exact E|exact Pq|]|].
  { rewrite Forall_forall in *. intros e Ie. split; [exact (Po e Ie)|]. rewrite Lq. exact (F e Ie). }
  split; [intros q; now apply match_selects|].
  split; [|intros p; now apply pt_match_selects].
  intros p Lp. apply pt_overlap_selects; [exact E|]. rewrite Lp. exact F.
Qed.

(** With the check of the minimum, extent() is the smallest box around the stored entries *)
Theorem C92_extent : forall (V : Type) (C : cfg) (s : st V), Forall (fun e => length (fst e) = dims C) (contents (root s)) ->
  1 <= mn C -> check_integrity C true s = true -> contents (root s) <> [] -> smallest_around (extent s) (map fst (contents (root s))).
Proof.
  intros V C s F M H N. apply C92_accepts in H; [|exact F]. destruct H as (Dr & _ & H).
  apply (good_smallest C true (root s) eq_refl M H). intros _ K. apply N. destruct (root s) as [|a p lf b c ok ks]; [discriminate|].
  cbn [nkids] in K. subst ks. reflexivity.
Qed.

(** The check says nothing about the depth of the values: it accepts the tree of
    [C70_depth_refuted] *)
Theorem C92_depth_unchecked : exists (s : st nat), Forall (fun e => length (fst e) = dims c4) (contents (root s)) /\
  check_integrity c4 false s = true /\ ~ exists h, Forall (fun x => x = h) (value_depths 0 (root s)).
Proof.
  exists (ex_erase 6 (ex_tree 35)). split; [|split].
  - apply Forall_forall. intros e Ie.
    assert (G : forallb (fun e => Nat.eqb (length (fst e)) (dims c4)) (contents (root (ex_erase 6 (ex_tree 35)))) = true) by (vm_compute; reflexivity).
    rewrite forallb_forall in G. apply Nat.eqb_eq. exact (G e Ie).
  - vm_compute. reflexivity.
  - set (D := value_depths 0 (root (ex_erase 6 (ex_tree 35)))).
    assert (E3 : existsb (Nat.eqb 3) D = true) by (vm_compute; reflexivity).
    assert (E4 : existsb (Nat.eqb 4) D = true) by (vm_compute; reflexivity).
    clearbody D. intros (h & F). rewrite Forall_forall in F.
    apply existsb_exists in E3. destruct E3 as (x & I3 & E3). apply Nat.eqb_eq in E3. subst x.
    apply existsb_exists in E4. destruct E4 as (x & I4 & E4). apply Nat.eqb_eq in E4. subst x.
    pose proof (F 3 I3). pose proof (F 4 I4). lia.
Qed.

(** A tree that passes, and trees with one thing changed that do not: a parent for the root, a
    wrong counter, a box that is too large, a child that points elsewhere *)
Definition broken (f : nd nat -> nd nat) : st nat := ST (f (root (ex_tree 14))) (nxt (ex_tree 14)).
Definition on_first (f : nd nat -> nd nat) (n : nd nat) : nd nat :=
  match nkids n with k :: ks => set_kids (ncnt n) (f k :: ks) n | [] => n end.
Example C92_case :
  forallb (fun e => Nat.eqb (length (fst e)) (dims c4)) (contents (root (ex_tree 14))) = true /\
  1 <= mn c4 /\ length (contents (root (ex_tree 14))) = 14 /\ check_integrity c4 true (ex_tree 14) = true /\
  check_integrity c4 false (broken (set_par (Some 7))) = false /\
  check_integrity c4 false (broken (fun n => set_kids 3 (nkids n) n)) = false /\
  check_integrity c4 false (broken (set_box [(-50, 50); (-50, 50)]%Z)) = false /\
  check_integrity c4 false (broken (on_first (set_par (Some 999)))) = false.
Proof.
  split; [vm_compute; reflexivity|]. split; [cbn; lia|]. split; [vm_compute; reflexivity|]. split; [vm_compute; reflexivity|].
  split; [vm_compute; reflexivity|]. split; [vm_compute; reflexivity|]. split; vm_compute; reflexivity.
Qed.

(** One query for all the theorems of this file. *)
Definition RtProps5_theorems := (@C92_accepts, @C92_searches, @C92_extent, @C92_depth_unchecked).
Print Assumptions RtProps5_theorems.
