(** Proofs about the flat_segment_tree model, fourth part: the search tree, equality,
    segment iteration and whole histories. *)
From Coq Require Import List ZArith Lia Bool ZifyBool ZifyNat.
From Verif Require Import Base FstModel FstProofs FstProofs2 FstProofs3.
Import ListNotations.
Open Scope Z_scope.

Section P.
Context {V : Type}.
Variable veqb : V -> V -> bool.
Variable vnull : V.
Hypothesis veqb_ok : eqb_ok veqb.

Local Notation leaf := (Z * V)%type.
Local Notation fst_t := (@fst_t V).
Local Notation wf := (wf vnull).
Local Notation op := (@op V).

(** ** The search tree *)

(** A node answers every key of its range with the leaf that starts the segment. *)
Definition node_ok (L : list leaf) (n : nl) : Prop :=
  nl_low n <= nl_high n /\
  forall key, nl_low n <= key < nl_high n ->
    exists p v ks ke, descend L key n = Ok (Some p) /\ leaf_at L key p v ks ke.

(** Consecutive nodes cover [lo,hi) without gaps. *)
Fixpoint chain (L : list leaf) (lo hi : Z) (l : list nl) : Prop :=
  match l with
  | [] => lo = hi
  | n :: t => nl_low n = lo /\ node_ok L n /\ chain L (nl_high n) hi t
  end.

Lemma build_level0_chain (L : list leaf) : sorted L ->
  forall n A B, (length B <= n)%nat -> L = A ++ B -> B <> [] ->
    chain L (fst (hd (0, vnull) B)) (fst (last B (0, vnull))) (build_level0 B (length A)).
Proof.
  intros HS. induction n as [|n IH]; intros A B Hn EL NB.
  - destruct B; [congruence|simpl in Hn; lia].
  - destruct B as [|[k1 v1] [|[k2 v2] B]]; [congruence| |].
    + simpl. repeat split; simpl; try lia. 
    + cbn [build_level0 chain].
      assert (k1 < k2) as H12.
      { subst L. apply sorted_app in HS. destruct HS as (_ & [HS _] & _).
        apply (HS (k2, v2)). now left. }
      assert (nth_error L (length A) = Some (k1, v1)) as N1 by (subst L; apply nth_error_app_mid).
      assert (nth_error L (S (length A)) = Some (k2, v2)) as N2.
      { subst L. rewrite nth_error_app2 by lia. now replace (S (length A) - length A)%nat with 1%nat by lia. }
      destruct B as [|[k3 v3] B].
      * (* last pair *)
        split; [reflexivity|]. split; [|reflexivity]. split; [simpl; lia|].
        cbn [nl_low nl_high]. intros key Hkey. exists (length A), v1, k1, k2.
        split; [|exists v2; repeat split; auto; lia].
        cbn [descend]. rewrite N1. cbn [deref bind]. rewrite N2. cbn [deref bind].
        now replace ((k1 <=? key) && (key <? k2)) with true by lia.
      * assert (k2 < k3) as H23.
        { subst L. apply sorted_app in HS. destruct HS as (_ & (_ & HS & _) & _).
          apply (HS (k3, v3)). now left. }
        assert (nth_error L (S (S (length A))) = Some (k3, v3)) as N3.
        { subst L. rewrite nth_error_app2 by lia. now replace (S (S (length A)) - length A)%nat with 2%nat by lia. }
        split; [reflexivity|]. split; [split; [simpl; lia|]|].
        -- cbn [nl_low nl_high]. intros key Hkey.
           cbn [descend]. rewrite N1. cbn [deref bind]. rewrite N2. cbn [deref bind].
           destruct (key <? k2) eqn:E.
           ++ exists (length A), v1, k1, k2. replace (k1 <=? key) with true by lia. simpl.
              split; [reflexivity|]. exists v2. repeat split; auto; lia.
           ++ exists (S (length A)), v2, k2, k3. rewrite andb_false_r.
              replace ((k2 <=? key) && (key <? k3)) with true by lia.
              split; [reflexivity|]. exists v3. repeat split; auto; lia.
        -- cbn [nl_high].
           specialize (IH (A ++ [(k1, v1); (k2, v2)]) ((k3, v3) :: B)).
           rewrite app_length in IH. simpl length in IH. replace (length A + 2)%nat with (S (S (length A))) in IH by lia.
           simpl hd in IH. simpl fst in IH.
           change (last ((k1, v1) :: (k2, v2) :: (k3, v3) :: B) (0, vnull)) with (last ((k3, v3) :: B) (0, vnull)).
           apply IH; [simpl in Hn; lia| |congruence].
           rewrite EL. now rewrite <- app_assoc.
Qed.

Lemma build_level_chain (L : list leaf) n : forall lo hi l, (length l <= n)%nat ->
  chain L lo hi l -> chain L lo hi (build_level l).
Proof.
  induction n as [|n IH]; intros lo hi l Hn HC.
  - destruct l; [assumption|simpl in Hn; lia].
  - destruct l as [|n1 [|n2 l]]; [assumption| |].
    + simpl in *. destruct HC as (H1 & H2 & H3). repeat split; auto; try apply H2.
      intros key Hkey. cbn [nl_low nl_high] in Hkey. simpl.
      replace ((nl_low n1 <=? key) && (key <? nl_high n1)) with true by lia.
      apply H2. assumption.
    + cbn [build_level chain] in *. destruct HC as (H1 & H2 & H3 & H4 & H5).
      cbn [nl_low nl_high]. repeat split; auto.
      * cbn [nl_low nl_high]. destruct H2 as [H2 _]. destruct H4 as [H4 _]. lia.
      * cbn [nl_low nl_high descend]. intros key Hkey. destruct (key <? nl_high n1) eqn:E.
        -- replace (nl_low n1 <=? key) with true by lia. simpl. apply H2. lia.
        -- rewrite andb_false_r. replace ((nl_low n2 <=? key) && (key <? nl_high n2)) with true by lia.
           apply H4. lia.
      * apply IH; auto. simpl in Hn. lia.
Qed.

Lemma build_level_length : forall n (l : list nl), (length l <= n)%nat ->
  length (build_level l) = Nat.div2 (S (length l)).
Proof.
  induction n as [|n IH]; intros l Hn.
  - destruct l; [reflexivity|simpl in Hn; lia].
  - destruct l as [|n1 [|n2 l]]; try reflexivity.
    cbn [build_level length]. rewrite IH by (simpl in Hn; lia). reflexivity.
Qed.

Lemma build_level0_length : forall n (l : list leaf) i, (length l <= n)%nat ->
  length (build_level0 l i) = Nat.div2 (S (length l)).
Proof.
  induction n as [|n IH]; intros l i Hn.
  - destruct l; [reflexivity|simpl in Hn; lia].
  - destruct l as [|[k1 v1] [|[k2 v2] l]]; try reflexivity.
    cbn [build_level0 length]. rewrite IH by (simpl in Hn; lia). reflexivity.
Qed.

Lemma div2_bounds n : (2 * Nat.div2 (S n) = n \/ 2 * Nat.div2 (S n) = S n)%nat.
Proof.
  pose proof (Nat.div2_odd (S n)) as H. destruct (Nat.odd (S n)); simpl Nat.b2n in H; lia.
Qed.

(** Number of non-leaf nodes the builder takes from the pool above a level of [n] nodes. *)
Fixpoint used (fuel n : nat) : nat :=
  match fuel with
  | O => O
  | S f => if (n <=? 1)%nat then O else (Nat.div2 (S n) + used f (Nat.div2 (S n)))%nat
  end.

Lemma used_fuel : forall f1 f2 n, (n <= S f1)%nat -> (n <= S f2)%nat -> used f1 n = used f2 n.
Proof.
  induction f1 as [|f1 IH]; intros f2 n H1 H2; cbn [used].
  - destruct f2; simpl; [reflexivity|]. now replace (n <=? 1)%nat with true by lia.
  - destruct (n <=? 1)%nat eqn:E.
    + destruct f2; cbn [used]; [reflexivity|]. now rewrite E.
    + destruct f2 as [|f2]; [lia|]. cbn [used]. rewrite E. f_equal.
      pose proof (div2_bounds n). apply IH; lia.
Qed.

Lemma count_needed_used : forall f n c, (n < f)%nat -> (1 <= n)%nat ->
  count_needed_nonleaf_nodes f n c = Ok (c + used f n)%nat.
Proof.
  induction f as [|f IH]; intros n c Hf Hn; [lia|]. cbn [count_needed_nonleaf_nodes used].
  destruct (n =? 1)%nat eqn:E.
  - replace (n <=? 1)%nat with true by lia. f_equal. lia.
  - replace (n <=? 1)%nat with false by lia.
    assert ((if (n mod 2 =? 1)%nat then S n else n) / 2 = Nat.div2 (S n))%nat as ->.
    { pose proof (Nat.div_mod n 2 ltac:(lia)) as HD. pose proof (Nat.mod_upper_bound n 2 ltac:(lia)) as HM.
      pose proof (div2_bounds n) as HB. destruct (n mod 2 =? 1)%nat eqn:E2.
      - pose proof (Nat.div_mod (S n) 2 ltac:(lia)). pose proof (Nat.mod_upper_bound (S n) 2 ltac:(lia)). lia.
      - lia. }
    pose proof (div2_bounds n). rewrite IH by lia. f_equal. lia.
Qed.

Lemma build_non_leaf_ok (L : list leaf) lo hi : forall fuel l pool,
  (length l <= S fuel)%nat -> l <> [] -> chain L lo hi l -> (used fuel (length l) <= pool)%nat ->
  exists r, build_tree_non_leaf fuel pool l = Ok (Some r) /\ node_ok L r /\ nl_low r = lo /\ nl_high r = hi.
Proof.
  induction fuel as [|f IH]; intros l pool Hl NL HC HP.
  - destruct l as [|n1 [|n2 l]]; [congruence| |simpl in Hl; lia].
    exists n1. simpl in *. destruct HC as (H1 & H2 & H3). auto.
  - destruct l as [|n1 [|n2 l]]; [congruence| |].
    + exists n1. simpl in *. destruct HC as (H1 & H2 & H3). auto.
    + set (l0 := n1 :: n2 :: l) in *.
      change (build_tree_non_leaf (S f) pool l0) with
        (let* pool' := take_pool pool (build_level l0) in build_tree_non_leaf f pool' (build_level l0)).
      pose proof (build_level_length (length l0) l0 (le_n _)) as HLen.
      pose proof (div2_bounds (length l0)) as HB.
      assert (2 <= length l0)%nat as H2 by (unfold l0; simpl; lia).
      cbn [used] in HP. replace (length l0 <=? 1)%nat with false in HP by lia.
      unfold take_pool. rewrite HLen. replace (Nat.div2 (S (length l0)) <=? pool)%nat with true by lia. cbn [bind].
      apply IH.
      * lia.
      * intros E. apply (f_equal (@length _)) in E. rewrite HLen in E. change (length (@nil nl)) with O in E. lia.
      * eapply build_level_chain; eauto.
      * rewrite HLen. lia.
Qed.

Lemma builder_ok mn mx vr (L : list leaf) pool :
  wfL mn mx vr L -> (used (length L) (length L) <= pool)%nat ->
  exists r, builder_build (length L) pool L = Ok (Some r) /\ node_ok L r /\ nl_low r = mn /\ nl_high r = mx.
Proof.
  intros (HS & v0 & X & EX) HP.
  pose proof (build_level0_chain L HS (length L) [] L (le_n _) eq_refl ltac:(rewrite EX; congruence)) as HC.
  simpl length in HC.
  pose proof (build_level0_length (length L) L 0 (le_n _)) as HLen.
  pose proof (div2_bounds (length L)) as HB.
  assert (2 <= length L)%nat as H2 by (rewrite EX; simpl; rewrite app_length; simpl; lia).
  unfold builder_build, take_pool. rewrite HLen.
  destruct (length L) as [|n] eqn:En; [lia|].
  cbn [used] in HP. replace (S n <=? 1)%nat with false in HP by lia.
  replace (Nat.div2 (S (S n)) <=? pool)%nat with true by lia. cbn [bind].
  destruct (build_non_leaf_ok L (fst (hd (0, vnull) L)) (fst (last L (0, vnull))) (S n) (build_level0 L 0)
    (pool - Nat.div2 (S (S n)))) as (r & H1 & H3 & H4 & H5).
  - rewrite HLen. lia.
  - intros E. apply (f_equal (@length _)) in E. rewrite HLen in E. change (length (@nil nl)) with O in E. lia.
  - assumption.
  - rewrite HLen. rewrite (used_fuel (S n) n) by lia. lia.
  - exists r. repeat split; auto; try apply H3.
    + rewrite H4, EX. reflexivity.
    + rewrite H5, EX. rewrite app_comm_cons, last_last. reflexivity.
Qed.

Lemma pool_mono : forall fuel pool pool' l r,
  build_tree_non_leaf fuel pool l = Ok r -> (pool <= pool')%nat -> build_tree_non_leaf fuel pool' l = Ok r.
Proof.
  induction fuel as [|f IH]; intros pool pool' l r H HP.
  - destruct l as [|n1 [|n2 l]]; simpl in *; congruence.
  - destruct l as [|n1 [|n2 l]]; [simpl in *; congruence|simpl in *; congruence|].
    set (l0 := n1 :: n2 :: l) in *.
    change (build_tree_non_leaf (S f) pool' l0) with
      (let* pool' := take_pool pool' (build_level l0) in build_tree_non_leaf f pool' (build_level l0)).
    change (build_tree_non_leaf (S f) pool l0) with
      (let* pool' := take_pool pool (build_level l0) in build_tree_non_leaf f pool' (build_level l0)) in H.
    unfold take_pool in *. destruct (length (build_level l0) <=? pool)%nat eqn:E; [|discriminate].
    replace (length (build_level l0) <=? pool')%nat with true by lia. cbn [bind] in *.
    eapply IH; eauto. lia.
Qed.

Lemma build_tree_ok mn mx d t : wf mn mx d t ->
  exists t', build_tree t = Ok t' /\ wf mn mx d t' /\ leaves t' = leaves t /\ valid_tree t' = true.
Proof.
  intros (W & WI & WT). pose proof W as (_ & v0 & X & EX).
  unfold build_tree. unfold leaf_size.
  assert (1 <= length (leaves t))%nat as H1 by (rewrite EX; simpl; lia).
  rewrite count_needed_used by lia. cbn [bind].
  destruct (builder_ok _ _ _ _ (0 + used (S (length (leaves t))) (length (leaves t))) W) as (r & E1 & E2 & E3 & E4).
  { rewrite (used_fuel (length (leaves t)) (S (length (leaves t)))); lia. }
  rewrite E1. cbn [bind]. eexists; split; [reflexivity|]. repeat split; auto; try apply W.
  cbn [leaves]. eauto.
  intros _. cbn [leaves root_node]. eauto.
Qed.

(** The number of nodes reserved for the tree is exactly the number used. *)
Lemma pool_exact mn mx vr (L : list leaf) pool :
  wfL mn mx vr L -> count_needed_nonleaf_nodes (S (length L)) (length L) 0 = Ok pool ->
  (exists r, builder_build (length L) pool L = Ok (Some r)) /\
  (forall p', (p' < pool)%nat -> builder_build (length L) p' L = Undef).
Proof.
  intros W HC. pose proof W as (_ & v0 & X & EX).
  assert (2 <= length L)%nat as H2 by (rewrite EX; simpl; rewrite app_length; simpl; lia).
  rewrite count_needed_used in HC by lia. assert (pool = used (length L) (length L)) as ->.
  { rewrite (used_fuel (length L) (S (length L))) by lia. set (u := used _ _) in *. injection HC. lia. }
  clear HC. split.
  - destruct (builder_ok _ _ _ _ _ W (le_n _)) as (r & H & _). eauto.
  - intros p' Hp. unfold builder_build, take_pool.
    pose proof (build_level0_length (length L) L 0 (le_n _)) as HLen. rewrite HLen.
    destruct (length L) as [|n] eqn:En; [lia|].
    cbn [used] in Hp. replace (S n <=? 1)%nat with false in Hp by lia.
    destruct (Nat.div2 (S (S n)) <=? p')%nat eqn:E; [|reflexivity]. cbn [bind].
    pose proof (div2_bounds (S n)) as HB.
    assert (forall fuel l q, (length l <= S fuel)%nat -> (q < used fuel (length l))%nat -> build_tree_non_leaf fuel q l = Undef) as G.
    { clear. induction fuel as [|f IH]; intros l q Hl Hq; [simpl in Hq; lia|].
      cbn [used] in Hq. destruct l as [|n1 [|n2 l]]; [simpl in Hq; lia|simpl in Hq; lia|].
      set (l0 := n1 :: n2 :: l) in *.
      change (build_tree_non_leaf (S f) q l0) with
        (let* pool' := take_pool q (build_level l0) in build_tree_non_leaf f pool' (build_level l0)).
      pose proof (build_level_length (length l0) l0 (le_n _)) as HLen.
      pose proof (div2_bounds (length l0)) as HB.
      assert (2 <= length l0)%nat as H2 by (unfold l0; simpl; lia).
      replace (length l0 <=? 1)%nat with false in Hq by lia.
      unfold take_pool. rewrite HLen. destruct (Nat.div2 (S (length l0)) <=? q)%nat eqn:E; [|reflexivity]. cbn [bind].
      apply IH; rewrite HLen; lia. }
    apply G; rewrite HLen; [lia|]. rewrite (used_fuel (S n) n) by lia. lia.
Qed.

Lemma tree_root mn mx d t : wf mn mx d t -> valid_tree t = true ->
  exists r, root_node t = Some r /\ node_ok (leaves t) r /\ nl_low r = mn /\ nl_high r = mx.
Proof.
  intros (W & _ & WT) HV. destruct (WT HV) as (pool & HB).
  destruct (builder_ok _ _ _ _ (pool + used (length (leaves t)) (length (leaves t))) W) as (r & E1 & E2); [lia|].
  assert (root_node t = Some r) as ->; [|eauto].
  unfold builder_build, take_pool in HB, E1.
  destruct (length (build_level0 (leaves t) 0) <=? pool)%nat eqn:F1; [|discriminate].
  replace (length (build_level0 (leaves t) 0) <=? pool + used (length (leaves t)) (length (leaves t)))%nat with true in E1 by lia.
  cbn [bind] in *. eapply pool_mono in HB; [rewrite HB in E1; injection E1; auto|]. lia.
Qed.

Lemma search_tree_eq mn mx d t x : wf mn mx d t -> valid_tree t = true -> search_tree t x = search t x.
Proof.
  intros W HV. destruct (left_right _ _ _ _ _ W) as (vl & E1 & E2).
  destruct (tree_root _ _ _ _ W HV) as (r & ER & HN & HLo & HHi).
  unfold search_tree, search_tree_for_leaf_node. rewrite ER, HV, E1, E2. cbn [negb bind].
  destruct ((x <? mn) || (mx <=? x)) eqn:Ex.
  - cbn [bind]. symmetry. eapply search_out; eauto. lia.
  - destruct HN as [_ HN]. destruct (HN x ltac:(lia)) as (p & v & ks & ke & HD & HL).
    rewrite HD. cbn [bind]. pose proof HL as (w & L1 & L2 & L3). rewrite L1, L2. cbn [deref bind].
    destruct (search_ok vnull mn mx d t x W ltac:(lia)) as (p' & v' & ks' & ke' & -> & HL' & _).
    destruct (leaf_at_unique _ _ _ _ _ _ _ _ _ _ (proj1 (proj1 W)) HL HL') as (-> & -> & -> & ->). reflexivity.
Qed.

Lemma search_tree_key_eq mn mx d t x : wf mn mx d t -> valid_tree t = true -> search_tree_key t x = search_key t x.
Proof.
  intros W HV. destruct (left_right _ _ _ _ _ W) as (vl & E1 & E2).
  destruct (tree_root _ _ _ _ W HV) as (r & ER & HN & HLo & HHi).
  unfold search_tree_key, search_tree_for_leaf_node. rewrite ER, HV, E1, E2. cbn [negb bind].
  destruct ((x <? mn) || (mx <=? x)) eqn:Ex.
  - cbn [bind]. symmetry. eapply search_key_out; eauto. lia.
  - destruct HN as [_ HN]. destruct (HN x ltac:(lia)) as (p & v & ks & ke & HD & HL). rewrite HD.
    destruct (search_key_ok vnull mn mx d t x W ltac:(lia)) as (p' & v' & ks' & ke' & -> & HL').
    now destruct (leaf_at_unique _ _ _ _ _ _ _ _ _ _ (proj1 (proj1 W)) HL HL') as (-> & _).
Qed.

(** ** Equality *)

Lemma leaves_eqb_ok (l1 l2 : list leaf) : leaves_eqb veqb l1 l2 = true <-> l1 = l2.
Proof.
  revert l2; induction l1 as [|[k1 v1] l1 IH]; intros [|[k2 v2] l2]; simpl; split; intros H; try discriminate; auto.
  - apply andb_true_iff in H. destruct H as [H H3]. apply andb_true_iff in H. destruct H as [H1 H2].
    apply IH in H3. apply veqb_ok in H2. assert (k1 = k2) by lia. congruence.
  - injection H as -> -> ->. rewrite Z.eqb_refl. rewrite (veqb_refl veqb veqb_ok). simpl. now apply IH.
Qed.

(** A canonical list is determined by its content. *)
Lemma canon_unique mx (l1 l2 : list leaf) : 
  forall d k, (forall b, In b l1 -> k < fst b < mx) -> (forall b, In b l2 -> k < fst b < mx) ->
  sorted l1 -> sorted l2 -> adjp (Some d) l1 -> adjp (Some d) l2 ->
  (forall x, k <= x < mx -> ev x l1 d = ev x l2 d) -> l1 = l2.
Proof.
  revert l2. induction l1 as [|[k1 v1] l1 IH]; intros l2 d k B1 B2 S1 S2 A1 A2 HE.
  - destruct l2 as [|[k2 v2] l2]; [reflexivity|exfalso].
    pose proof (B2 (k2, v2) (or_introl eq_refl)) as Hk. simpl in Hk.
    specialize (HE k2 ltac:(lia)). rewrite ev_nil, ev_cons in HE. simpl fst in HE. simpl snd in HE. rewrite Z.leb_refl in HE.
    rewrite ev_gt in HE by (intros a Ha; apply S2 in Ha; simpl in Ha; lia).
    destruct A2 as [A2 _]. simpl in A2. congruence.
  - destruct l2 as [|[k2 v2] l2].
    { exfalso. pose proof (B1 (k1, v1) (or_introl eq_refl)) as Hk. simpl in Hk.
      specialize (HE k1 ltac:(lia)). rewrite ev_nil, ev_cons in HE. simpl fst in HE. simpl snd in HE. rewrite Z.leb_refl in HE.
      rewrite ev_gt in HE by (intros a Ha; apply S1 in Ha; simpl in Ha; lia).
      destruct A1 as [A1 _]. simpl in A1. congruence. }
    pose proof (B1 (k1, v1) (or_introl eq_refl)) as Hk1. pose proof (B2 (k2, v2) (or_introl eq_refl)) as Hk2. simpl in Hk1, Hk2.
    assert (k1 = k2) as <-.
    { destruct (Z.lt_trichotomy k1 k2) as [H|[H|H]]; [exfalso|assumption|exfalso].
      - specialize (HE k1 ltac:(lia)). rewrite !ev_cons in HE. simpl fst in HE. simpl snd in HE. rewrite Z.leb_refl in HE.
        replace (k2 <=? k1) with false in HE by lia.
        rewrite !ev_gt in HE; [destruct A1 as [A1 _]; simpl in A1; congruence| |];
          intros a Ha; [apply S2 in Ha|apply S1 in Ha]; simpl in Ha; lia.
      - specialize (HE k2 ltac:(lia)). rewrite !ev_cons in HE. simpl fst in HE. simpl snd in HE. rewrite Z.leb_refl in HE.
        replace (k1 <=? k2) with false in HE by lia.
        rewrite !ev_gt in HE; [destruct A2 as [A2 _]; simpl in A2; congruence| |];
          intros a Ha; [apply S2 in Ha|apply S1 in Ha]; simpl in Ha; lia. }
    assert (v1 = v2) as <-.
    { specialize (HE k1 ltac:(lia)). rewrite !ev_cons in HE. simpl fst in HE. simpl snd in HE. rewrite Z.leb_refl in HE.
      rewrite !ev_gt in HE; [assumption| |]; intros a Ha; [apply S2 in Ha|apply S1 in Ha]; simpl in Ha; lia. }
    f_equal. destruct A1 as [_ A1], A2 as [_ A2], S1 as [S1 S1'], S2 as [S2 S2']. simpl in A1, A2.
    apply (IH l2 v1 k1); auto.
    + intros b Hb. specialize (S1 b Hb). specialize (B1 b (or_intror Hb)). simpl in S1. lia.
    + intros b Hb. specialize (S2 b Hb). specialize (B2 b (or_intror Hb)). simpl in S2. lia.
    + intros x Hx. specialize (HE x ltac:(lia)). rewrite !ev_cons in HE. simpl fst in HE. simpl snd in HE.
      now replace (k1 <=? x) with true in HE by lia.
Qed.

Lemma canon_content_eq mn mx d d' (t t' : fst_t) :
  wf mn mx d t -> wf mn mx d' t' -> canonL (leaves t) -> canonL (leaves t') ->
  (forall x, mn <= x < mx -> ev x (leaves t) d = ev x (leaves t') d') -> leaves t = leaves t'.
Proof.
  intros ((S1 & v1 & X1 & E1) & _) ((S2 & v2 & X2 & E2) & _) C1 C2 HE.
  unfold canonL in *. rewrite E1 in *. rewrite E2 in *. rewrite app_comm_cons, removelast_last in C1, C2.
  destruct C1 as [_ C1], C2 as [_ C2]. simpl in C1, C2.
  rewrite app_comm_cons in S1, S2. apply sorted_app in S1, S2.
  destruct S1 as (S1 & _ & M1), S2 as (S2 & _ & M2).
  assert (mn < mx) as Hlt by (apply (M1 (mn, v1) (mx, vnull)); now left).
  assert (forall x, mn <= x < mx -> ev x X1 v1 = ev x X2 v2) as HE'.
  { intros x Hx. specialize (HE x Hx). rewrite !ev_cons, !ev_app in HE. simpl fst in HE. simpl snd in HE.
    replace (mn <=? x) with true in HE by lia.
    now rewrite !(ev_gt x [(mx, vnull)]) in HE by (intros a [<-|[]]; simpl; lia). }
  assert (v1 = v2) as <-.
  { specialize (HE' mn ltac:(lia)). rewrite !ev_gt in HE'; [assumption| |]; intros a Ha; [apply S2 in Ha|apply S1 in Ha]; simpl in Ha; lia. }
  f_equal. f_equal. apply (canon_unique mx X1 X2 v1 mn); auto; try apply S1; try apply S2.
  - intros b Hb. split; [now apply S1 in Hb|]. apply (M1 b (mx, vnull)); [now right|now left].
  - intros b Hb. split; [now apply S2 in Hb|]. apply (M2 b (mx, vnull)); [now right|now left].
Qed.

(** ** Segments *)

Lemma segments_nth (l : list leaf) p ks v ke w :
  nth_error l p = Some (ks, v) -> nth_error l (S p) = Some (ke, w) -> nth_error (segments_of l) p = Some (ks, ke, v).
Proof.
  revert p; induction l as [|[k1 v1] l IH]; intros p H1 H2; [destruct p; discriminate|].
  destruct l as [|[k2 v2] l]; [destruct p as [|[|p]]; discriminate|].
  destruct p as [|p].
  - simpl in *. congruence.
  - change (nth_error (segments_of ((k2, v2) :: l)) p = Some (ks, ke, v)). apply IH; assumption.
Qed.

Lemma segments_nth_inv (l : list leaf) p ks v ke : 
  nth_error (segments_of l) p = Some (ks, ke, v) ->
  exists w, nth_error l p = Some (ks, v) /\ nth_error l (S p) = Some (ke, w).
Proof.
  revert p; induction l as [|[k1 v1] l IH]; intros p H; [destruct p; discriminate|].
  destruct l as [|[k2 v2] l]; [destruct p; discriminate|].
  destruct p as [|p].
  - simpl in *. injection H as -> -> ->. eauto.
  - change (nth_error (segments_of ((k2, v2) :: l)) p = Some (ks, ke, v)) in H. apply IH in H. assumption.
Qed.

(** ** Histories *)

(** Content prescribed by the documentation after one operation; [f] before it. *)
Definition spec_step (mn mx : Z) (d : V) (f : Z -> V) (o : op) : Z -> V :=
  match o with
  | OFront s e v | OBack s e v | OHint _ s e v => upd f s e v
  | OShiftL s e => if (mn <=? s) && (s <? e) && (e <=? mx) then spec_shl mx d f s e else f
  | OShiftR pos n skip => if (0 <? n) && (mn <=? pos) && (pos <? mx) then spec_shr mn d f pos n skip else f
  | OBuild => f
  | OClear => fun _ => d
  | OCopy => f
  end.
Definition spec_run (mn mx : Z) (d : V) (ops : list op) : Z -> V :=
  fold_left (spec_step mn mx d) ops (fun _ => d).

Lemma spec_step_ext mn mx d f g o :
  (forall x, mn <= x < mx -> f x = g x) ->
  forall x, mn <= x < mx -> spec_step mn mx d f o x = spec_step mn mx d g o x.
Proof.
  intros H x Hx. destruct o; simpl; unfold upd; auto.
  - now rewrite H.
  - now rewrite H.
  - now rewrite H.
  - destruct ((mn <=? s) && (s <? e) && (e <=? mx)) eqn:E; auto. unfold spec_shl.
    destruct (x <? s) eqn:E1; auto. destruct (x <? mx - (e - s)) eqn:E2; auto. apply H. lia.
  - destruct ((0 <? n) && (mn <=? pos) && (pos <? mx)) eqn:E; auto. unfold spec_shr.
    destruct (x <? pos) eqn:E1; auto. destruct (x <? pos + n) eqn:E2.
    + destruct skip; [apply H; lia|]. destruct (pos =? mn) eqn:E3; auto. apply H. lia.
    + apply H. lia.
Qed.

(** An operation that keeps neighbouring segments different. *)
Definition keeps_min (mn mx : Z) (d : V) (f : Z -> V) (o : op) : Prop :=
  match o with
  | OShiftL s e => ~ ((mn <= s /\ s < e /\ e <= mx) /\ shl_bad mn mx d f s e)
  | _ => True
  end.

Lemma wf_new mn mx d : mn < mx -> wf mn mx d (fst_new vnull mn mx d).
Proof.
  intros H. split; [|split; [reflexivity|discriminate]].
  split.
  - simpl. intuition. subst. simpl. lia.
  - exists d, []. reflexivity.
Qed.

Lemma canon_new mn mx d : canonL (leaves (fst_new vnull mn mx d)).
Proof. unfold canonL. simpl. intuition congruence. Qed.

Lemma clear_ok mn mx d t : wf mn mx d t ->
  exists t', fst_clear t = Ok t' /\ wf mn mx d t' /\ canonL (leaves t') /\
    forall x, mn <= x < mx -> ev x (leaves t') d = d.
Proof.
  intros W. destruct (left_right _ _ _ _ _ W) as (vl & E1 & E2). pose proof (wf_lt _ _ _ _ _ W) as Hlt.
  unfold fst_clear. rewrite E1, E2. cbn [bind fst]. destruct W as (_ & WI & _). rewrite WI.
  eexists; split; [reflexivity|]. split; [|split].
  - split; [|split; [reflexivity|discriminate]]. split.
    + simpl. intuition. subst. simpl. lia.
    + exists d, []. reflexivity.
  - unfold canonL. simpl. intuition congruence.
  - intros x Hx. cbn [leaves]. rewrite !ev_cons, ev_nil. simpl fst; simpl snd.
    replace (mn <=? x) with true by lia. now replace (mx <=? x) with false by lia.
Qed.

(** Conditions under which a call has defined behaviour. *)
Definition defined_call (mn : Z) (t : fst_t) (o : op) : Prop :=
  match o with
  | OFront s e _ | OBack s e _ => ~ (s < mn /\ e = mn)
  | OHint p s e _ => ~ (s < mn /\ e = mn) /\ match p with Some p => (p < length (leaves t))%nat | None => True end
  | _ => True
  end.

Lemma insert_result_step mn mx d t s e v r :
  ins_result vnull mn mx d t s e v r ->
  exists t', (let* (t', _, _) := r in Ok t') = Ok t' /\ wf mn mx d t' /\
   (forall x, mn <= x < mx -> ev x (leaves t') d = upd (fun y => ev y (leaves t) d) s e v x) /\
   (canonL (leaves t) -> canonL (leaves t')).
Proof.
  intros (t' & it & chg & -> & W & HC & HE & _). exists t'. cbn [bind]. auto.
Qed.

Lemma step_defined mn mx d t o : wf mn mx d t -> (exists t', step veqb t o = Ok t') <-> defined_call mn t o.
Proof.
  intros W. destruct o; simpl; (split; [intros [t' H]|intros H]); auto.
  - intros [H1 ->]. unfold insert_front in H. rewrite (insert_bad veqb vnull mn mx d t s v true W H1) in H. discriminate.
  - destruct (insert_all veqb vnull veqb_ok mn mx d t s e v W H) as (r & HR & HF & _). rewrite HF.
    apply insert_result_step in HR. destruct HR as (t' & HR & _). eauto.
  - intros [H1 ->]. unfold insert_back in H. rewrite (insert_bad veqb vnull mn mx d t s v false W H1) in H. discriminate.
  - destruct (insert_all veqb vnull veqb_ok mn mx d t s e v W H) as (r & HR & _ & HF & _). rewrite HF.
    apply insert_result_step in HR. destruct HR as (t' & HR & _). eauto.
  - split.
    + intros [H1 ->]. rewrite (insert_hint_bad veqb vnull mn mx d t s v p W H1) in H. discriminate.
    + destruct p as [p|]; auto. unfold insert_hint in H. destruct (nth_error (leaves t) p) eqn:E; [|discriminate].
      apply nth_error_Some. congruence.
  - destruct H as [H1 H2]. destruct (insert_all veqb vnull veqb_ok mn mx d t s e v W H1) as (r & HR & _ & _ & HN & HF).
    apply insert_result_step in HR. destruct HR as (t' & HR & _). exists t'.
    destruct p as [p|]; [rewrite HF by assumption|rewrite HN]; assumption.
  - destruct (mn <=? s) eqn:E1, (s <? e) eqn:E2, (e <=? mx) eqn:E3;
    try (exists t; apply (shift_left_noop veqb vnull mn mx d); [assumption|lia]).
    destruct (shift_left_spec veqb vnull veqb_ok mn mx d t s e W) as (t' & HR & _); [lia..|]. eauto.
  - destruct (0 <? n) eqn:E1, (mn <=? pos) eqn:E2, (pos <? mx) eqn:E3;
    try (exists t; apply (shift_right_noop veqb vnull mn mx d); [assumption|lia]).
    destruct (shift_right_spec veqb vnull veqb_ok mn mx d t pos n skip W) as (t' & HR & _); [lia..|]. eauto.
  - destruct (build_tree_ok mn mx d t W) as (t' & HR & _). eauto.
  - destruct (clear_ok mn mx d t W) as (t' & HR & _). eauto.
  - eauto.
Qed.

Lemma step_ok mn mx d t o t' : wf mn mx d t -> step veqb t o = Ok t' ->
  wf mn mx d t' /\
  (forall x, mn <= x < mx -> ev x (leaves t') d = spec_step mn mx d (fun y => ev y (leaves t) d) o x) /\
  (canonL (leaves t) -> keeps_min mn mx d (fun y => ev y (leaves t) d) o -> canonL (leaves t')).
Proof.
  intros W H. assert (defined_call mn t o) as HD by (apply (step_defined mn mx d t o W); eauto).
  assert (forall s e v r t', ins_result vnull mn mx d t s e v r -> (let* (t', _, _) := r in Ok t') = Ok t' ->
    wf mn mx d t' /\ (forall x, mn <= x < mx -> ev x (leaves t') d = upd (fun y => ev y (leaves t) d) s e v x) /\
    (canonL (leaves t) -> True -> canonL (leaves t'))) as HI.
  { intros s e v r u HR Hu. apply insert_result_step in HR. destruct HR as (u' & Hu' & H1 & H2 & H3).
    rewrite Hu in Hu'. injection Hu' as <-. auto. }
  destruct o; cbn [step spec_step keeps_min defined_call] in *.
  - destruct (insert_all veqb vnull veqb_ok mn mx d t s e v W HD) as (r & HR & HF & _). rewrite HF in H. eapply HI; eauto.
  - destruct (insert_all veqb vnull veqb_ok mn mx d t s e v W HD) as (r & HR & _ & HF & _). rewrite HF in H. eapply HI; eauto.
  - destruct HD as [HD1 HD2].
    destruct (insert_all veqb vnull veqb_ok mn mx d t s e v W HD1) as (r & HR & _ & _ & HN & HF).
    destruct p as [p|]; [rewrite HF in H by assumption|rewrite HN in H]; eapply HI; eauto.
  - destruct ((mn <=? s) && (s <? e) && (e <=? mx)) eqn:E.
    + destruct (shift_left_spec veqb vnull veqb_ok mn mx d t s e W) as (u & HR & H1 & H2 & H3); [lia..|].
      rewrite HR in H. injection H as <-. repeat split; auto; try apply H1.
      intros HC HK. apply H3; auto. intros HB. apply HK. split; [lia|assumption].
    + rewrite (shift_left_noop veqb vnull mn mx d) in H by (auto; lia). injection H as <-. auto.
  - destruct ((0 <? n) && (mn <=? pos) && (pos <? mx)) eqn:E.
    + destruct (shift_right_spec veqb vnull veqb_ok mn mx d t pos n skip W) as (u & HR & H1 & H2 & H3); [lia..|].
      rewrite HR in H. injection H as <-. auto.
    + rewrite (shift_right_noop veqb vnull mn mx d) in H by (auto; lia). injection H as <-. auto.
  - destruct (build_tree_ok mn mx d t W) as (u & HR & H1 & H2 & H3). rewrite HR in H. injection H as <-.
    rewrite H2. auto.
  - destruct (clear_ok mn mx d t W) as (u & HR & H1 & H2 & H3). rewrite HR in H. injection H as <-. auto.
  - injection H as <-. destruct W as (W1 & W2 & _). split; [|split; auto].
    split; [exact W1|]. split; [exact W2|]. intros HV. discriminate.
Qed.

(** Every operation of a history keeps neighbouring segments different. *)
Fixpoint keeps_min_run (mn mx : Z) (d : V) (f : Z -> V) (ops : list op) : Prop :=
  match ops with
  | [] => True
  | o :: rest => keeps_min mn mx d f o /\ keeps_min_run mn mx d (spec_step mn mx d f o) rest
  end.

Lemma keeps_min_ext mn mx d f g o : mn < mx -> (forall x, mn <= x < mx -> f x = g x) -> keeps_min mn mx d f o -> keeps_min mn mx d g o.
Proof.
  intros Hlt H. destruct o; simpl; auto. intros HK [HB1 (B1 & B2 & B3 & B4)]. apply HK. split; auto.
  repeat split; auto; rewrite H; auto; lia.
Qed.

Lemma keeps_min_run_ext mn mx d ops : mn < mx -> forall f g, (forall x, mn <= x < mx -> f x = g x) ->
  keeps_min_run mn mx d f ops -> keeps_min_run mn mx d g ops.
Proof.
  intros Hlt. induction ops as [|o ops IH]; intros f g H; simpl; auto. intros [H1 H2]. split.
  - eapply keeps_min_ext; eauto.
  - eapply IH; [|exact H2]. now apply spec_step_ext.
Qed.

Lemma run_ok mn mx d ops : forall t t' f,
  wf mn mx d t -> (forall x, mn <= x < mx -> ev x (leaves t) d = f x) ->
  run veqb t ops = Ok t' ->
  wf mn mx d t' /\
  (forall x, mn <= x < mx -> ev x (leaves t') d = fold_left (spec_step mn mx d) ops f x) /\
  (canonL (leaves t) -> keeps_min_run mn mx d f ops -> canonL (leaves t')).
Proof.
  induction ops as [|o ops IH]; intros t t' f W Hf HR; simpl in HR.
  - injection HR as <-. simpl. auto.
  - destruct (step veqb t o) as [u| |] eqn:Es; try discriminate. cbn [bind] in HR.
    destruct (step_ok mn mx d t o u W Es) as (W' & HE & HC).
    destruct (IH u t' (spec_step mn mx d f o) W') as (H1 & H2 & H3); auto.
    + intros x Hx. rewrite HE by assumption. now apply spec_step_ext.
    + split; [assumption|]. split; [assumption|]. intros HC0 [HK1 HK2]. apply H3; auto.
      apply HC; auto. eapply keeps_min_ext; [eapply wf_lt; eauto| |exact HK1]. intros; symmetry; auto.
Qed.

Lemma run_new mn mx d ops t : mn < mx -> run veqb (fst_new vnull mn mx d) ops = Ok t ->
  wf mn mx d t /\
  (forall x, mn <= x < mx -> ev x (leaves t) d = spec_run mn mx d ops x) /\
  (keeps_min_run mn mx d (fun _ => d) ops -> canonL (leaves t)).
Proof.
  intros Hlt HR. destruct (run_ok mn mx d ops _ t (fun _ => d) (wf_new mn mx d Hlt)) in |- *; auto.
  - intros x Hx. simpl. replace (mn <=? x) with true by lia. now replace (mx <=? x) with false by lia.
  - destruct H0 as [H1 H2]. split; [assumption|]. split; [assumption|]. intros HK. apply H2; auto. apply canon_new.
Qed.

(** ** Invalidation of the search tree *)

Lemma insert_to_pos_valid t i s e v t' ns chg :
  insert_to_pos veqb t i s e v = Ok (t', ns, chg) -> valid_tree t' = if chg then false else valid_tree t.
Proof.
  unfold insert_to_pos. destruct (insert_start veqb (leaves t) i s v) as [[[[[L1 ns1] old] ch] dd]| |]; try discriminate.
  cbn [bind]. destruct (_ <=? _)%nat; [discriminate|].
  destruct (insert_end veqb _ _ _ _ _ _ _) as [[L2 c2]| |]; try discriminate. cbn [bind].
  intros H. injection H as <- <- <-. reflexivity.
Qed.

Lemma insert_impl_valid t s e v fwd t' it chg :
  insert_segment_impl veqb t s e v fwd = Ok (t', it, chg) -> valid_tree t' = if chg then false else valid_tree t.
Proof.
  unfold insert_segment_impl. destruct (left_leaf t) as [[mn ?]| |]; try discriminate.
  destruct (right_leaf t) as [[mx ?]| |]; try discriminate. cbn [bind].
  destruct (adjust_segment_range mn mx s e) as [[s' e']|].
  2:{ intros H. injection H as <- <- <-. reflexivity. }
  destruct (if fwd then _ else _) as [i|].
  2:{ intros H. injection H as <- <- <-. reflexivity. }
  destruct (insert_to_pos veqb t i s' e' v) as [[[u ns] c]| |] eqn:E; try discriminate. cbn [bind].
  intros H. injection H as <- <- <-. eapply insert_to_pos_valid; eauto.
Qed.

Lemma insert_hint_valid t p s e v t' it chg :
  insert_hint veqb t p s e v = Ok (t', it, chg) -> valid_tree t' = if chg then false else valid_tree t.
Proof.
  unfold insert_hint. destruct p as [p|]; [|apply insert_impl_valid].
  destruct (nth_error (leaves t) p) as [[kp ?]|]; try discriminate. cbn [deref bind].
  destruct (s <? kp); [apply insert_impl_valid|].
  destruct (left_leaf t) as [[mn ?]| |]; try discriminate.
  destruct (right_leaf t) as [[mx ?]| |]; try discriminate. cbn [bind].
  destruct (adjust_segment_range mn mx s e) as [[s' e']|].
  2:{ intros H. injection H as <- <- <-. reflexivity. }
  destruct (get_insertion_pos_leaf s' (leaves t) p) as [i|]; try discriminate. cbn [deref bind].
  destruct (insert_to_pos veqb t i s' e' v) as [[[u ns] c]| |] eqn:E; try discriminate. cbn [bind].
  intros H. injection H as <- <- <-. eapply insert_to_pos_valid; eauto.
Qed.

Lemma append_valid t k t' : append_new_segment veqb t k = Ok t' -> valid_tree t = false -> valid_tree t' = false.
Proof.
  unfold append_new_segment. destruct (right_idx t) as [|q]; try discriminate.
  destruct (nth_error (leaves t) q) as [[kq vq]|]; try discriminate. cbn [deref bind].
  destruct (kq =? k); [|destruct (veqb _ _)]; intros H; injection H as <-; auto.
Qed.

Lemma append_valid2 t k t' : append_new_segment veqb t k = Ok t' ->
  (forall q kq vq, nth_error (leaves t) q = Some (kq, vq) -> (q < right_idx t)%nat -> kq < k) ->
  t' = t \/ valid_tree t' = false.
Proof.
  unfold append_new_segment. destruct (right_idx t) as [|q]; try discriminate.
  destruct (nth_error (leaves t) q) as [[kq vq]|] eqn:E; try discriminate. cbn [deref bind].
  intros H HK. specialize (HK q kq vq E ltac:(lia)).
  replace (kq =? k) with false in H by lia. destruct (veqb _ _); injection H as <-; auto.
Qed.

Lemma gip_before key : forall (l : list leaf) i j q b, gip key l i = Some j -> nth_error l q = Some b ->
  (i + q < j)%nat -> fst b < key.
Proof.
  induction l as [|[k v] l IH]; intros i j q b H Hb Hq; [discriminate|].
  simpl in H. destruct (key <=? k) eqn:E.
  - injection H as <-. lia.
  - destruct q as [|q]; simpl in Hb.
    + injection Hb as <-. simpl. lia.
    + eapply IH; eauto. lia.
Qed.

Lemma shift_left_valid mn mx d t s e t' : wf mn mx d t -> shift_left veqb t s e = Ok t' ->
  t' = t \/ valid_tree t' = false.
Proof.
  intros W. destruct (left_right _ _ _ _ _ W) as (vl & E1 & E2). pose proof (wf_lt _ _ _ _ _ W) as Hlt.
  unfold shift_left. destruct (e <=? s) eqn:Hes; [intros H; injection H as <-; auto|].
  rewrite E1, E2. cbn [bind].
  destruct ((s <? mn) || (e <? mn)) eqn:H1; [intros H; injection H as <-; auto|].
  destruct ((mx <? s) || (mx <? e)) eqn:H2; [intros H; injection H as <-; auto|].
  destruct (if mn =? s then Some 0%nat else get_insertion_pos_leaf s (leaves t) 1) as [p|] eqn:Ep;
    [|intros H; injection H as <-; auto].
  destruct (p =? right_idx t)%nat eqn:Epr.
  - assert (forall q kq vq, nth_error (leaves t) q = Some (kq, vq) -> (q < right_idx t)%nat -> kq < s) as HK.
    { intros q kq vq Hq Hlq. destruct (mn =? s) eqn:Ems; [injection Ep as <-; lia|].
      destruct q as [|q].
      - unfold left_leaf in E1. rewrite Hq in E1. simpl in E1. injection E1 as -> _. lia.
      - unfold get_insertion_pos_leaf in Ep. destruct (leaves t) as [|b L]; [discriminate|].
        change (skipn 1 (b :: L)) with L in Ep. simpl in Hq.
        apply (gip_before s L 1 p q (kq, vq) Ep Hq). lia. }
    destruct (mx <=? e) eqn:Emx; intros H; apply (append_valid2 _ _ _ H).
    + assumption.
    + intros q kq vq Hq Hlq. specialize (HK q kq vq Hq Hlq). lia.
  - destruct (nth_error (leaves t) p) as [[kp vp]|]; try discriminate. cbn [deref bind].
    destruct (e <? kp); [intros H; right; eapply append_valid; eauto|].
    destruct (drop_upto _ _ _) as [rest lastv]. intros H; right; eapply append_valid; eauto.
Qed.

Lemma shift_right_valid t pos n k t' : shift_right veqb t pos n k = Ok t' -> t' = t \/ valid_tree t' = false.
Proof.
  unfold shift_right. destruct (n <=? 0); [intros H; injection H as <-; auto|].
  destruct (left_leaf t) as [[mn ?]| |]; try discriminate.
  destruct (right_leaf t) as [[mx ?]| |]; try discriminate. cbn [bind].
  destruct ((pos <? mn) || (mx <=? pos)); [intros H; injection H as <-; auto|].
  destruct (mn =? pos); [intros H; injection H as <-; auto|].
  destruct (get_insertion_pos_leaf pos (leaves t) 1) as [p|]; [|intros H; injection H as <-; auto].
  destruct (nth_error (leaves t) p) as [[kp ?]|]; try discriminate. cbn [deref bind].
  destruct (_ <? _)%nat; intros H; injection H as <-; auto.
Qed.

Lemma step_valid mn mx d t o t' : wf mn mx d t -> step veqb t o = Ok t' -> o <> OBuild ->
  t' = t \/ valid_tree t' = false.
Proof.
  intros W H HO. 
  assert (forall s e v r u it chg, ins_result vnull mn mx d t s e v r -> r = Ok (u, it, chg) ->
    valid_tree u = (if chg then false else valid_tree t) -> u = t \/ valid_tree u = false) as G.
  { intros s e v r u it chg (u' & it' & chg' & -> & _ & _ & _ & HN & _) HE HV. injection HE as -> -> ->.
    destruct chg; auto. }
  pose proof (proj1 (step_defined mn mx d t o W) (ex_intro _ t' H)) as HD.
  destruct o; cbn [step defined_call] in *; try congruence.
  - destruct (insert_front veqb t s e v) as [[[u it] chg]| |] eqn:E; try discriminate. injection H as <-.
    destruct (insert_all veqb vnull veqb_ok mn mx d t s e v W HD) as (r & HR & HF & _).
    eapply G; [exact HR|rewrite <- HF; exact E|unfold insert_front, insert_back in E; eapply insert_impl_valid; exact E].
  - destruct (insert_back veqb t s e v) as [[[u it] chg]| |] eqn:E; try discriminate. injection H as <-.
    destruct (insert_all veqb vnull veqb_ok mn mx d t s e v W HD) as (r & HR & _ & HF & _).
    eapply G; [exact HR|rewrite <- HF; exact E|unfold insert_front, insert_back in E; eapply insert_impl_valid; exact E].
  - destruct (insert_hint veqb t p s e v) as [[[u it] chg]| |] eqn:E; try discriminate. injection H as <-.
    destruct HD as [HD1 HD2].
    destruct (insert_all veqb vnull veqb_ok mn mx d t s e v W HD1) as (r & HR & _ & _ & HN & HF).
    eapply G; [exact HR| |eapply insert_hint_valid; exact E].
    destruct p as [p|]; [rewrite <- (HF p HD2)|rewrite <- HN]; exact E.
  - eapply shift_left_valid; eauto.
  - eapply shift_right_valid; eauto.
  - unfold fst_clear in H. destruct (left_leaf t) as [[mn' ?]| |]; try discriminate.
    destruct (right_leaf t) as [[mx' ?]| |]; try discriminate. cbn [bind] in H. injection H as <-. auto.
  - injection H as <-. auto.
Qed.

Lemma search_tree_invalid (t : fst_t) x : valid_tree t = false -> search_tree t x = Ok None /\ search_tree_key t x = Ok None.
Proof.
  intros H. unfold search_tree, search_tree_key, search_tree_for_leaf_node. rewrite H.
  now destruct (root_node t).
Qed.

End P.
