(** Searching, begin, end and stepping back in a packed map. *)
From Coq Require Import List ZArith Lia Bool Arith Sorted.
From Verif Require Import Base TrieModel TrieSpec TrieProofs TrieProofs2 TrieProofs3 PackModel PackSpec PackProofs PackSim.
Import ListNotations.
Open Scope Z_scope.

Section SIM2.
Context {V : Type}.
Variable T : ptraits.
Hypothesis HT : pt_ok T.
Local Notation tnode := (tnode V).
Local Notation stack := (list (TrieModel.tnode V * nat)).
Variable m : pmap V.
Local Notation b := (pk m).
Local Notation s := (store m).
Local Notation irel := (irel T m).
Local Notation srel := (srel T m).
Local Notation isim := (isim T m).

(** ** The binary search *)
Lemma sorted_nth (l : list Z) i j a c : StronglySorted Z.lt l -> nth_error l i = Some a -> nth_error l j = Some c ->
  (i < j)%nat -> a < c.
Proof.
  intros H. revert i j. induction H as [|x l Hs IH Hf]; intros i j E F Hij; [destruct i; discriminate|].
  destruct j as [|j]; [lia|]. destruct i as [|i]; cbn in E, F.
  - injection E as ->. rewrite Forall_forall in Hf. apply Hf. eapply nth_error_In; eauto.
  - apply (IH i j); auto. lia.
Qed.

Lemma fcp_ok first c (ks : list Z) : StronglySorted Z.lt ks ->
  (forall i a, nth_error ks i = Some a -> exists z, rd b (first + i * 2) = Ok z /\ cast_unit T z = a) ->
  forall f low high, (low <= high < length ks)%nat -> (high - low < f)%nat ->
  (forall j, nth_error ks j = Some c -> (low <= j <= high)%nat) ->
  fcp_loop T f b first low high c =
    Ok (match List.find (fun p => c =? snd p) (combine (seq 0 (length ks)) ks) with Some (j, _) => Some (first + j * 2)%nat | None => None end).
Proof.
  intros Hs Hr.
  assert (HJ : forall j, nth_error ks j = Some c -> List.find (fun p => c =? snd p) (combine (seq 0 (length ks)) ks) = Some (j, c)).
  { assert (G : forall l k j, StronglySorted Z.lt l -> nth_error l j = Some c -> List.find (fun p => c =? snd p) (combine (seq k (length l)) l) = Some ((k + j)%nat, c)).
    { clear. induction l as [|x l IH]; intros k j H E; [destruct j; discriminate|]. inversion H as [|? ? H1 H2]; subst.
      cbn [length seq combine List.find snd]. destruct j as [|j]; cbn in E.
      - injection E as ->. rewrite Z.eqb_refl, Nat.add_0_r. reflexivity.
      - rewrite Forall_forall in H2. pose proof (H2 c (nth_error_In _ _ E)).
        replace (c =? x) with false by (symmetry; apply Z.eqb_neq; lia). rewrite (IH (S k) j); auto. do 2 f_equal. lia. }
    intros j E. apply (G ks O j); auto. }
  assert (HN : (forall j, nth_error ks j <> Some c) -> List.find (fun p => c =? snd p) (combine (seq 0 (length ks)) ks) = None).
  { intros H. destruct (List.find _ _) as [[j a]|] eqn:E; auto. exfalso. apply find_some in E as [E1 E2]. cbn in E2. apply Z.eqb_eq in E2. subst a.
    apply In_nth_error in E1 as [i E1]. assert (G : forall (l : list Z) k i j a, nth_error (combine (seq k (length l)) l) i = Some (j, a) -> nth_error l i = Some a).
    { clear. induction l as [|x l IH]; intros k [|i] j a; cbn; try discriminate; [intros E; injection E as _ ->; auto|]. apply IH. }
    apply (H i). eapply G; eauto. }
  induction f as [|f IH]; intros low high Hl Hf Hj; [lia|]. cbn [fcp_loop].
  replace (low <=? high)%nat with true by (symmetry; apply Nat.leb_le; lia).
  assert (Hi : (low <= (low + high) / 2 <= high)%nat).
  { split; [apply Nat.div_le_lower_bound; lia|apply Nat.div_le_upper_bound; lia]. }
  assert (Hi1 : (high - low >= 2)%nat -> (low < (low + high) / 2 < high)%nat).
  { intros. split; [apply Nat.div_le_lower_bound; lia|apply Nat.div_lt_upper_bound; lia]. }
  assert (Hi2 : (high = S low)%nat -> ((low + high) / 2 = low)%nat).
  { intros ->. replace (low + S low)%nat with (1 + low * 2)%nat by lia. rewrite Nat.div_add by lia. reflexivity. }
  set (i := ((low + high) / 2)%nat) in *. clearbody i.
  destruct (nth_error ks i) as [a|] eqn:Ea; [|apply nth_error_None in Ea; lia].
  destruct (Hr i a Ea) as (z & E1 & E2). rewrite E1. cbn [bind]. rewrite E2.
  destruct (Z.eqb_spec c a) as [<-|Hne].
  { rewrite (HJ i Ea). reflexivity. }
  destruct (Nat.eqb_spec low high) as [<-|Hne'].
  { rewrite HN; auto. intros j E. pose proof (Hj j E). assert (j = i) by lia. subst j. congruence. }
  destruct (Nat.eqb_spec (high - low) 1) as [H1|H1].
  { assert (i = low) by (apply Hi2; lia). subst i. rewrite Nat.eqb_refl. apply IH; [lia|lia|].
    intros j E. pose proof (Hj j E). assert (j <> low) by (intros ->; congruence). lia. }
  specialize (Hi1 ltac:(lia)).
  destruct (Z.ltb_spec c a).
  - apply IH; [lia|lia|]. intros j E. pose proof (Hj j E). destruct (le_lt_dec j i); [lia|].
    pose proof (sorted_nth _ _ _ _ _ Hs Ea E ltac:(lia)). lia.
  - apply IH; [lia|lia|]. intros j E. pose proof (Hj j E). destruct (le_lt_dec i j); [lia|].
    pose proof (sorted_nth _ _ _ _ _ Hs E Ea ltac:(lia)). lia.
Qed.

Lemma find_child_combine c (l : list (Z * tnode)) : ksorted l -> forall k,
  match find_child c l with
  | Some (j, _) => List.find (fun p => c =? snd p) (combine (seq k (length (map fst l))) (map fst l)) = Some ((k + j)%nat, c)
  | None => List.find (fun p => c =? snd p) (combine (seq k (length (map fst l))) (map fst l)) = None
  end.
Proof.
  induction l as [|[a n] l IH]; intros H k; [reflexivity|]. apply ksorted_cons in H as [H1 H2].
  cbn [map fst length seq combine List.find snd find_child]. rewrite (Z.eqb_sym a c). destruct (Z.eqb_spec c a) as [->|Hne].
  - rewrite Nat.add_0_r. reflexivity.
  - specialize (IH H1 (S k)). destruct (find_child c l) as [[j n']|].
    + rewrite IH. do 2 f_equal. lia.
    + exact IH.
Qed.

Lemma find_child_pos_ok lo p n c : (1 <= lo)%nat -> rep T b s lo p n -> wf n -> nch n <> [] ->
  find_child_pos T b (p + 2) (length (nch n)) c =
    Ok (match find_child c (nch n) with Some (i, _) => Some (p + 2 + 2 * i)%nat | None => None end).
Proof.
  intros L R Hw Hn. unfold find_child_pos. destruct (length (nch n)) as [|h] eqn:El; [destruct (nch n); cbn in El; congruence|].
  pose proof (wf_kids _ Hw) as [Hs _]. rewrite <- El in *.
  assert (Em : length (map fst (nch n)) = length (nch n)) by apply map_length.
  rewrite (fcp_ok (p + 2) c (map fst (nch n)) Hs).
  - pose proof (find_child_combine c (nch n) Hs O) as G. destruct (find_child c (nch n)) as [[i sub]|]; rewrite G; auto.
    do 2 f_equal. cbn [Nat.add]. lia.
  - intros i a E. rewrite nth_error_map in E. destruct (nth_error (nch n) i) as [[a' sub]|] eqn:En; [|discriminate].
    cbn in E. injection E as ->. destruct (rep_child _ _ _ _ _ _ _ _ _ R En) as (lo' & o & U & C1 & _).
    exists (wrap T a). split; [|apply cast_wrap; auto]. replace (p + 2 + i * 2)%nat with (p + 2 + 2 * i)%nat by lia. apply rd_some; auto.
  - lia.
  - lia.
  - intros j E. assert (j < length (map fst (nch n)))%nat by (apply nth_error_Some; congruence). lia.
Qed.

(** ** find_prefix_node *)
Definition below (o0 p : nat) (rest : stack) (prest : list pitem) : Prop :=
  rest = [] /\ prest = [] /\ p = o0 \/
  exists y st ip pst, rest = y :: st /\ prest = ip :: pst /\ srel o0 rest prest /\ (snd y < length (nch (fst y)))%nat.
Lemma below_push o0 p rest prest x it : below o0 p rest prest -> irel x it -> node_pos it = p -> srel o0 (x :: rest) (it :: prest).
Proof.
  intros [(-> & -> & ->)|(y & st & ip & pst & -> & -> & H & Hy)] I E; [constructor; auto|]. constructor; auto.
Qed.

Lemma pfpn_some o0 k : forall lo p n q rest prest, (1 <= lo)%nat -> rep T b s lo p n -> wf n -> below o0 p rest prest ->
  find_prefix_node n k = Some q ->
  exists it pst, pfind_prefix_node T b p k (map Some prest) = Ok (Some (node_pos it), Some it :: map Some pst) /\
    srel o0 (find_prefix_node_with_stack rest n k) (it :: pst) /\
    (exists st, find_prefix_node_with_stack rest n k = (q, O) :: st) /\ (exists lo', (1 <= lo')%nat /\ rep T b s lo' (node_pos it) q).
Proof.
  induction k as [|c k IH]; intros lo p n q rest prest L R Hw B E; cbn [find_prefix_node] in E.
  - injection E as <-. cbn [pfind_prefix_node find_prefix_node_with_stack].
    destruct (open_ok T m _ _ _ L R) as (it & Eo & I & Ep & _). rewrite Eo. cbn [bind].
    exists it, prest. rewrite Ep. split; auto. split; [eapply below_push; eauto|]. split; eauto.
  - destruct (find_child c (nch n)) as [[i sub]|] eqn:Ec; [|discriminate]. pose proof (find_child_nth _ _ _ _ Ec) as En.
    cbn [pfind_prefix_node find_prefix_node_with_stack]. rewrite Ec.
    destruct (rep_head _ _ _ _ _ _ R) as (z & _ & _ & Es). rewrite (rd_some m _ _ Es). cbn [bind].
    assert (Hn : nch n <> []) by (intros F; rewrite F in En; destruct i; discriminate).
    assert (Ez : Z.of_nat (2 * length (nch n)) / 2 = Z.of_nat (length (nch n))).
    { rewrite Nat2Z.inj_mul, Z.mul_comm. apply Z.div_mul. lia. }
    rewrite Ez, Nat2Z.id.
    replace (Z.of_nat (length (nch n)) =? 0) with false by (symmetry; apply Z.eqb_neq; destruct (nch n); cbn [length]; [congruence|lia]).
    pose proof (rep_len _ _ _ _ _ _ R) as Ln. unfold cells in Ln. rewrite fwd_ok by lia. cbn [bind].
    rewrite (find_child_pos_ok lo p n c L R Hw Hn), Ec. cbn [bind].
    assert (Hi : (i < length (nch n))%nat) by (apply nth_error_Some; congruence).
    assert (I : irel (n, i) (PIt p (p + 2 + 2 * i) (p + 2 + 2 * length (nch n)))).
    { exists lo. cbn [fst snd node_pos child_pos child_end]. split; auto. split; auto. split; [lia|]. split; auto. }
    destruct (child_ok T HT m _ _ c sub I En) as (lo' & o & L' & R' & _ & _ & E3 & E4). cbn [node_pos child_pos] in *.
    rewrite E3. cbn [bind]. rewrite E4. cbn [bind].
    change (Some (PIt p (p + 2 + 2 * i) (p + 2 + 2 * length (nch n))) :: map Some prest) with
      (map Some (PIt p (p + 2 + 2 * i) (p + 2 + 2 * length (nch n)) :: prest)).
    apply (IH lo' o sub q ((n, i) :: rest)); auto.
    + eapply wf_child; eauto.
    + right. eexists _, _, _, _. split; [reflexivity|]. split; [reflexivity|]. split; auto. eapply below_push; eauto.
Qed.

Lemma pfpn_none k : forall lo p n st, (1 <= lo)%nat -> rep T b s lo p n -> wf n ->
  find_prefix_node n k = None -> exists st', pfind_prefix_node T b p k st = Ok (None, None :: st').
Proof.
  induction k as [|c k IH]; intros lo p n st L R Hw E; cbn [find_prefix_node] in E; [discriminate|].
  cbn [pfind_prefix_node].
  destruct (rep_head _ _ _ _ _ _ R) as (z & _ & _ & Es). rewrite (rd_some m _ _ Es). cbn [bind].
  assert (Ez : Z.of_nat (2 * length (nch n)) / 2 = Z.of_nat (length (nch n))).
  { rewrite Nat2Z.inj_mul, Z.mul_comm. apply Z.div_mul. lia. }
  rewrite Ez, Nat2Z.id. destruct (nch n) as [|x0 cs0] eqn:Hn; [cbn; eauto|]. rewrite <- Hn in *.
  replace (Z.of_nat (length (nch n)) =? 0) with false by (symmetry; apply Z.eqb_neq; rewrite Hn; cbn [length]; lia).
  pose proof (rep_len _ _ _ _ _ _ R) as Ln. unfold cells in Ln. rewrite fwd_ok by lia. cbn [bind].
  rewrite (find_child_pos_ok lo p n c L R Hw) by congruence. destruct (find_child c (nch n)) as [[i sub]|] eqn:Ec; cbn [bind]; [|eauto].
  pose proof (find_child_nth _ _ _ _ Ec) as En.
  assert (Hi : (i < length (nch n))%nat) by (apply nth_error_Some; congruence).
  assert (I : irel (n, i) (PIt p (p + 2 + 2 * i) (p + 2 + 2 * length (nch n)))).
  { exists lo. cbn [fst snd node_pos child_pos child_end]. split; auto. split; auto. split; [lia|]. split; auto. }
  destruct (child_ok T HT m _ _ c sub I En) as (lo' & o & L' & R' & _ & _ & E3 & E4). cbn [node_pos child_pos] in *.
  rewrite E3. cbn [bind]. rewrite E4. cbn [bind]. apply (IH lo' o sub); auto. eapply wf_child; eauto.
Qed.

Lemma stack_units_ok o0 (t : tnode) st k : canon t st k -> forall pst, srel o0 st pst -> stack_units T b (tl pst) = Ok k.
Proof.
  induction 1 as [i|n i p j rest k c H IH Hn]; intros pst S; inversion S as [|? ? it ip st' pst' I Hy S']; subst; [reflexivity|].
  cbn [tl stack_units]. pose proof (srel_head _ _ _ _ _ _ _ S') as I'.
  destruct (child_ok T HT m _ _ c n I' Hn) as (lo & o & _ & _ & E1 & E2 & _). rewrite E1. cbn [bind].
  specialize (IH _ S'). cbn [tl] in IH. rewrite IH. cbn [bind]. rewrite E2. reflexivity.
Qed.
Lemma somes_map {A} (l : list A) : somes (map Some l) = Ok l.
Proof. induction l as [|a l IH]; cbn; auto. rewrite IH. reflexivity. Qed.

(** ** Whole maps *)
Section WHOLE.
Variable t : tnode.
Hypothesis HP : packs T m t.
Hypothesis HW : wf t.

Lemma root_ok : exists o lo, root_pos m = Ok o /\ (1 <= lo)%nat /\ rep T b s lo o t.
Proof.
  destruct HP as (o & E & R & L & _). exists o, 1%nat. split; [|split; auto].
  unfold root_pos. rewrite (rd_some m _ _ E). cbn [bind]. rewrite fwd_ok; auto. lia.
Qed.

Lemma root_item_ok : exists o it, root_pos m = Ok o /\ root_item m = Ok it /\ irel (t, O) it /\ node_pos it = o /\
  child_end it = (o + 2 + 2 * length (nch t))%nat.
Proof.
  destruct root_ok as (o & lo & E & L & R). destruct (open_ok T m _ _ _ L R) as (it & Eo & I & Ep & Ee).
  exists o, it. unfold root_item. rewrite E. cbn [bind]. auto 6.
Qed.

Lemma pend_ok : exists o e, root_pos m = Ok o /\ pend T m = Ok e /\ isim o (tend t) e.
Proof.
  destruct root_item_ok as (o & it & E & Ei & I & Ep & Ee). exists o. eexists. unfold pend. rewrite Ei. cbn [bind].
  split; auto. split; [reflexivity|]. destruct I as (lo & L & R & _ & _ & Ee'). cbn [fst] in *.
  split; [|repeat split; discriminate]. cbn [stk pstk tend]. constructor; auto.
  exists lo. cbn [fst snd node_pos child_pos child_end]. split; auto.
Qed.

Lemma size_ok : psize m = count_values t.
Proof. destruct HP as (o & _ & _ & _ & L & _). exact L. Qed.
Lemma pempty_ok : pempty m = match count_values t with O => true | _ => false end.
Proof. rewrite <- size_ok. unfold pempty, psize. destruct (store m); reflexivity. Qed.

Lemma pk_fuel (n : tnode) lo p : (1 <= lo)%nat -> rep T b s lo p n -> (node_count n <= length b)%nat.
Proof. intros L R. pose proof (count_cells _ _ _ _ _ _ R). apply rep_len in R. unfold cells in R. lia. Qed.

Lemma srel_count o0 st pst n i rest : srel o0 st pst -> st = (n, i) :: rest -> (node_count n <= length b)%nat.
Proof.
  intros H ->. destruct (srel_shape _ _ _ _ _ H) as (x & st' & it & pst' & E & -> & I). injection E as <- <-.
  destruct I as (lo & L & R & _). eapply pk_fuel; eauto.
Qed.

(** begin() of a map with children under the root *)
Lemma pbegin_ok x : nch t <> [] -> tbegin t = Ok x -> exists o px, root_pos m = Ok o /\ pbegin T m = Ok px /\ isim o x px.
Proof.
  intros Hn E. destruct root_item_ok as (o & it & Er & Ei & I & Ep & Ee). exists o.
  unfold pbegin. rewrite Ei. cbn [bind]. pose proof I as (lo & L & R & _ & Ec & Ee'). cbn [fst snd] in *.
  assert (0 < length (nch t))%nat by (destruct (nch t); cbn; [congruence|lia]).
  replace (child_pos it =? child_end it)%nat with false by (symmetry; apply Nat.eqb_neq; lia).
  unfold tbegin in E. destruct (nch t) as [|[c sub] cs] eqn:En; [congruence|].
  assert (S0 : srel o [(t, O)] [it]) by (constructor; auto).
  destruct (push_child_ok T HT m _ _ _ _ _ [] c sub S0) as (it' & Ep' & S1); [cbn; rewrite En; reflexivity|].
  cbn [app] in *. rewrite Ep'. cbn [bind].
  destruct (descend_first sub [(sub, O); (t, O)] [c]) as [[st bf]| |] eqn:Ed; try discriminate. cbn [bind] in E.
  destruct (pdescend_first_ok T HT m o sub (length b) _ _ _ _ _ S1 Ed) as (pst' & z & n' & st'' & a & E1 & S2 & -> & Ha & Sz).
  { eapply srel_count; eauto. }
  rewrite E1. cbn [bind]. eexists. split; auto. split; [reflexivity|].
  cbn [mk_iter] in E. injection E as <-. repeat split; auto. intros _. exists a. split; auto. apply Sz.
Qed.
Lemma pbegin_leaf : nch t = [] -> exists o px, root_pos m = Ok o /\ pbegin T m = Ok px /\ isim o (tend t) px.
Proof.
  intros Hn. destruct root_item_ok as (o & it & Er & Ei & I & Ep & Ee). exists o. eexists. split; auto.
  unfold pbegin. rewrite Ei. cbn [bind]. pose proof I as (lo & L & R & _ & Ec & Ee'). cbn [fst snd] in *.
  rewrite Hn in *. cbn [length] in *. replace (child_pos it =? child_end it)%nat with true by (symmetry; apply Nat.eqb_eq; lia).
  split; [reflexivity|]. split; [|repeat split; discriminate]. unfold tend. cbn [stk pstk]. constructor; auto. rewrite Hn. exact I.
Qed.

(** find *)
Lemma pfind_hit k v : lookup t k = Some v ->
  exists o x R px, root_pos m = Ok o /\ pos t [] k v R x /\ pfind T m k = Ok px /\ isim o x px.
Proof.
  intros Hl. pose proof Hl as Hl0. unfold lookup in Hl. destruct (find_prefix_node t k) as [q|] eqn:E; [|discriminate].
  destruct root_ok as (o & lo & Er & L & R). exists o.
  assert (Hc : count_values t <> O).
  { rewrite (count_entries []). assert (HI : In (k, v) (entries [] t)) by (apply in_entries; [auto|]; exists k; auto). destruct (entries [] t); [destruct HI|cbn; lia]. }
  unfold pfind. rewrite pempty_ok. destruct (count_values t); [congruence|]. rewrite Er. cbn [bind].
  destruct (pfpn_some o k lo o t q [] [] L R HW) as (it & pst & E1 & S & (st & Es) & _); [left; auto|auto|].
  cbn [map] in E1. rewrite E1. cbn [bind]. destruct (fpns_canon _ _ _ E) as (st1 & E2 & C). rewrite E2 in S, Es. clear st Es E2.
  pose proof (srel_head _ _ _ _ _ _ _ S) as I. destruct (irel_value _ _ _ _ I) as (z & Ez & Sz). rewrite Ez. cbn [bind].
  rewrite (slot_null _ _ _ _ Sz). cbn [fst] in Sz |- *. rewrite Hl in *.
  rewrite somes_map. cbn [bind]. pose proof (stack_units_ok o t _ k C _ S) as Eu. cbn [tl] in Eu. rewrite Eu. cbn [bind].
  eexists _, _, _. split; auto. split; [exists q, st1; repeat split; eauto|]. split; [reflexivity|].
  repeat split; auto. intros _. exists v. split; auto. apply Sz.
Qed.
Lemma pfind_miss k : lookup t k = None -> exists o px, root_pos m = Ok o /\ pfind T m k = Ok px /\ isim o (tend t) px.
Proof.
  intros Hl. destruct pend_ok as (o & e & Er & Ee & S0). exists o, e. split; auto. split; auto.
  unfold pfind. rewrite pempty_ok. destruct (count_values t) eqn:Hc; auto. rewrite Er. cbn [bind].
  destruct root_ok as (o' & lo & Er' & L & R). rewrite Er in Er'. injection Er' as <-.
  unfold lookup in Hl. destruct (find_prefix_node t k) as [q|] eqn:E.
  - destruct (pfpn_some o k lo o t q [] [] L R HW) as (it & pst & E1 & S & (st & Es) & _); [left; auto|auto|].
    cbn [map] in E1. rewrite E1. cbn [bind]. rewrite Es in S.
    pose proof (srel_head _ _ _ _ _ _ _ S) as I. destruct (irel_value _ _ _ _ I) as (z & Ez & Sz). rewrite Ez. cbn [bind].
    rewrite (slot_null _ _ _ _ Sz). cbn [fst]. rewrite Hl. auto.
  - destruct (pfpn_none k lo o t [] L R HW E) as (st' & E1). rewrite E1. cbn [bind]. auto.
Qed.

(** prefix_search *)
Lemma pprefix_none p : find_prefix_node t p = None \/ count_values t = O -> exists bf,
  pprefix_search T m p = Ok (PR true None bf).
Proof.
  intros E. unfold pprefix_search. rewrite pempty_ok. destruct (count_values t) eqn:Hc; [eauto|].
  destruct E as [E|E]; [|discriminate]. destruct root_ok as (o & lo & Er & L & R). rewrite Er. cbn [bind].
  destruct (pfpn_none p lo o t [] L R HW E) as (st' & E1). rewrite E1. cbn [bind]. eauto.
Qed.
Lemma pprefix_some p n : find_prefix_node t p = Some n -> count_values t <> O ->
  exists o lo, pprefix_search T m p = Ok (PR true (Some o) p) /\ (1 <= lo)%nat /\ rep T b s lo o n.
Proof.
  intros E Hc. unfold pprefix_search. rewrite pempty_ok. destruct (count_values t); [congruence|].
  destruct root_ok as (o & lo & Er & L & R). rewrite Er. cbn [bind].
  destruct (pfpn_some o p lo o t n [] [] L R HW) as (it & pst & E1 & S & _ & lo' & L' & R'); [left; auto|auto|].
  cbn [map] in E1. rewrite E1. cbn [bind]. eauto.
Qed.
End WHOLE.

Lemma pk_fuel' (n : tnode) lo p : (1 <= lo)%nat -> rep T b s lo p n -> (node_count n <= length b)%nat.
Proof. intros L R. pose proof (count_cells _ _ _ _ _ _ R). apply rep_len in R. unfold cells in R. lia. Qed.

Lemma prbegin_ok n lo o b0 x : (1 <= lo)%nat -> rep T b s lo o n -> rbegin (Some n, b0) = Ok x ->
  exists px, prbegin T m (PR true (Some o) b0) = Ok px /\ isim o x px.
Proof.
  intros L R E. unfold rbegin in E. cbn [fst snd] in E.
  destruct (descend_first n [(n, O)] b0) as [[st bf]| |] eqn:Ed; try discriminate. cbn [bind] in E.
  destruct (open_ok T m _ _ _ L R) as (it & Eo & I & Ep & _). unfold prbegin. cbn [rnode rbuf rvs]. rewrite Eo. cbn [bind].
  assert (S0 : srel o [(n, O)] [it]) by (constructor; auto).
  destruct (pdescend_first_ok T HT m o n (length b) _ _ _ _ _ S0 Ed) as (pst' & z & n' & st'' & a & E1 & S2 & -> & Ha & Sz).
  { eapply pk_fuel'; eauto. }
  rewrite E1. cbn [bind]. eexists. split; [reflexivity|].
  cbn [mk_iter] in E. injection E as <-. repeat split; auto. intros _. exists a. split; auto. apply Sz.
Qed.
Lemma prend_ok n lo o b0 : (1 <= lo)%nat -> rep T b s lo o n ->
  exists px, prend T m (PR true (Some o) b0) = Ok px /\ isim o (rend (Some n, b0)) px.
Proof.
  intros L R. destruct (open_ok T m _ _ _ L R) as (it & Eo & I & Ep & Ee). unfold prend. cbn [rnode rbuf rvs]. rewrite Eo. cbn [bind].
  eexists. split; [reflexivity|]. split; [|repeat split; discriminate]. unfold rend. cbn [stk pstk fst]. constructor; auto.
  exists lo. cbn [fst snd node_pos child_pos child_end]. split; auto.
Qed.

(** ** Stepping back *)
Lemma pdec_leaf_ok o0 : forall f f' st pst bf q st' bf', srel o0 st pst ->
  dec_leaf f st bf = Ok (q, st', bf') -> (f <= f')%nat ->
  (forall n i, In (n, i) st -> (node_count n <= length b)%nat) ->
  exists pst' z, pdec_leaf T f' b pst bf = Ok (pst', bf', z) /\ srel o0 st' pst' /\ slot_ok T s z (nval q) /\ nval q <> None.
Proof.
  induction f as [|f IH]; intros f' st pst bf q st' bf' S E Hf HN; [discriminate|]. destruct f' as [|f']; [lia|].
  cbn [dec_leaf] in E. cbn [pdec_leaf]. inversion S as [|x [p i] it ip st0 pst0 I Hy S']; subst; [discriminate|].
  cbn [tl] in *. cbn [fst snd] in *. pose proof (srel_head _ _ _ _ _ _ _ S') as I'.
  destruct (irel_value _ _ _ _ I') as (z & Ez & Sz). rewrite Ez. cbn [bind]. rewrite (irel_size _ _ _ _ I'). cbn [bind].
  pose proof I' as (lo & L & R & _ & Ec & Ee). cbn [fst snd] in *.
  assert (HN' : forall n j, In (n, j) ((p, i) :: st0) -> (node_count n <= length b)%nat) by (intros; eapply HN; right; eauto).
  destruct (Nat.eqb_spec i 0) as [->|Hi].
  - replace (child_pos ip =? node_pos ip + 2)%nat with true by (symmetry; apply Nat.eqb_eq; lia). cbn [bind].
    rewrite (slot_null _ _ _ _ Sz). unfold has_value in E. destruct (nval p) as [a|] eqn:Ea.
    + injection E as <- <- <-. eexists _, z. split; [reflexivity|]. rewrite Ea. split; auto. split; auto. congruence.
    + apply (IH f' _ _ _ _ _ _ S' E); auto. lia.
  - replace (child_pos ip =? node_pos ip + 2)%nat with false by (symmetry; apply Nat.eqb_neq; lia).
    destruct i as [|j]; [congruence|]. unfold descend_prev in E.
    destruct (nth_error (nch p) j) as [[c sub]|] eqn:En; [|discriminate]. cbn [deref bind fst snd] in E.
    destruct (pdescend_prev_ok T HT m o0 sub (length b) p j st0 ip pst0 (removelast bf) c S' En) as (pst1 & E1 & S1 & i1 & st1 & E2).
    { pose proof (HN' p (Datatypes.S j) (or_introl eq_refl)). pose proof (node_count_child _ _ _ _ En). lia. }
    rewrite E1. cbn [bind]. destruct (descend_last sub ((p, j) :: st0) (removelast bf ++ [c])) as [[q1 st2] bf2] eqn:Ed. cbn [fst snd] in *. subst st2.
    cbn [bind] in E. destruct (srel_shape _ _ _ _ _ S1) as (x1 & st2 & it1 & pst2 & Ex & -> & I1). injection Ex as <- <-.
    unfold top_value. destruct (irel_value _ _ _ _ I1) as (z1 & Ez1 & Sz1). rewrite Ez1. cbn [bind].
    cbn [fst] in Sz1. rewrite (slot_null _ _ _ _ Sz1). unfold has_value in E. destruct (nval q1) as [a|] eqn:Ea.
    + injection E as <- <- <-. eexists _, z1. split; [reflexivity|]. rewrite Ea. split; auto. split; auto. congruence.
    + apply (IH f' _ _ _ _ _ _ S1 E); [lia|]. intros n k HI.
      clear -S1 HI. remember ((q1, i1) :: st1) as st. remember (it1 :: pst2) as pst. clear Heqst Heqpst.
      induction S1 as [x it I _|x y it ip st pst I _ S1 IHs]; [destruct HI as [->|[]]|destruct HI as [->|HI]; [|auto]];
        destruct I as (lo & L & R & _); eapply pk_fuel'; eauto.
Qed.

Lemma srel_counts o0 st pst : srel o0 st pst -> forall n i, In (n, i) st -> (node_count n <= length b)%nat.
Proof.
  intros S1. induction S1 as [x it I _|x y it ip st pst I _ S1 IHs]; intros n i HI; [destruct HI as [->|[]]|destruct HI as [->|HI]; [|eauto]];
    destruct I as (lo & L & R & _); eapply pk_fuel'; eauto.
Qed.

Lemma pdec_leaf_case o0 n b0 k v R x px x' : pos n b0 k v R x -> isim o0 x px ->
  (forall q rest, stk x = (q, O) :: rest -> nch q = []) -> k <> [] -> iter_dec x = Ok x' -> ity x' = T_normal ->
  exists px', piter_dec T m px = Ok px' /\ isim o0 x' px'.
Proof.
  intros (q & rest & C & Hv & -> & _) (S & Hb & Ht & Hp & _) Hl Hk E Hn. cbn [stk buf ity cval] in *.
  specialize (Hl q rest eq_refl). unfold iter_dec in E. cbn [stk buf ity] in E.
  inversion C as [|? ? p j rest0 k0 c C0 En]; subst; [congruence|].
  assert (is_leaf q = true) as El by (unfold is_leaf; rewrite Hl; auto). rewrite El in E.
  rewrite (canon_fuel _ _ _ C) in E.
  assert (E' : (let* r := dec_leaf (Datatypes.S (node_count n)) ((q, O) :: (p, j) :: rest0) (b0 ++ k0 ++ [c]) in
     Ok (let '(n0, st, b1) := r in IT st b1 b1 (nval n0) T_normal)) = Ok x') by (destruct (has_value q); exact E). clear E.
  destruct (dec_leaf (Datatypes.S (node_count n)) ((q, O) :: (p, j) :: rest0) (b0 ++ k0 ++ [c])) as [[[n1 st1] bf1]| |] eqn:Ed; try discriminate.
  cbn [bind] in E'. injection E' as <-.
  destruct (pdec_leaf_ok o0 _ (length b) _ _ _ _ _ _ S Ed) as (pst' & z & E1 & S1 & Sz & Hz).
  { exact (srel_fuel T m o0 n _ _ _ C S). }
  { eapply srel_counts; eauto. }
  inversion S as [|? ? it ip st' pst0 I Hy S' E2 E3]; subst. unfold piter_dec. rewrite <- E3 in *. rewrite Hb, Ht.
  destruct (irel_value _ _ _ _ I) as (z0 & Ez0 & Sz0). rewrite Ez0. cbn [bind]. rewrite (irel_size _ _ _ _ I). cbn [bind fst].
  rewrite Hl. cbn [length Nat.mul Z.of_nat Z.eqb].
  rewrite E1. cbn [bind]. eexists. split; [reflexivity|]. repeat split; auto. cbn [cval pcur]. intros _.
  destruct (nval n1) as [a|]; [|congruence]. exists a. split; auto. apply Sz.
Qed.

Lemma pdec_end_case o0 n b0 x px x' : at_end n b0 x -> isim o0 x px -> nval n = None ->
  iter_dec x = Ok x' -> (exists v, cval x' = Some v) -> exists px', piter_dec T m px = Ok px' /\ isim o0 x' px'.
Proof.
  intros (E1 & E2 & E3) (S & Hb & Ht & Hp & _) Hv E (w & Hw). unfold iter_dec in E. rewrite E1, E2, E3 in E. unfold has_value in E. rewrite Hv in E.
  destruct (length (nch n)) as [|j] eqn:El; [discriminate|]. unfold descend_prev in E.
  destruct (nth_error (nch n) j) as [[c sub]|] eqn:En; [|discriminate]. cbn [deref bind fst snd] in E.
  rewrite E1, ?El in S. inversion S as [? it I Eo E4 E5|]; subst.
  rewrite <- E5 in S. destruct (pdescend_prev_ok T HT m _ sub (length b) n j [] it [] (buf x) c S) as (pst1 & F1 & S1 & i1 & st1 & F2); auto.
  { destruct I as (lo & L & R & _). pose proof (pk_fuel' _ _ _ L R). pose proof (node_count_child _ _ _ _ En). cbn in *. lia. }
  unfold piter_dec. rewrite <- E5, Hb, Ht, E3.
  destruct (irel_value _ _ _ _ I) as (z0 & Ez0 & Sz0). rewrite Ez0. cbn [bind]. rewrite (irel_size _ _ _ _ I). cbn [bind fst].
  rewrite (slot_null _ _ _ _ Sz0). cbn [fst]. rewrite Hv. rewrite F1. cbn [bind].
  destruct (descend_last sub [(n, j)] (buf x ++ [c])) as [[q1 st2] bf2] eqn:Ed. cbn [fst snd] in *. subst st2.
  destruct (srel_shape _ _ _ _ _ S1) as (x1 & st2 & it1 & pst2 & Ex & -> & I1). injection Ex as <- <-.
  unfold top_value. destruct (irel_value _ _ _ _ I1) as (z1 & Ez1 & Sz1). rewrite Ez1. cbn [bind].
  injection E as <-. eexists. split; [reflexivity|]. repeat split; auto. intros _. cbn [cval pcur] in *. exists w. split; auto.
  cbn [fst] in Sz1. rewrite Hw in Sz1. apply Sz1.
Qed.
End SIM2.
