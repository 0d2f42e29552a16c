(** The constructor from a table, and bounds on the size of the buffer. *)
From Coq Require Import List ZArith Lia Bool Arith Sorted.
From Verif Require Import Base TrieModel TrieSpec TrieProofs TrieProofs2 PackModel PackSpec PackProofs.
Import ListNotations.
Open Scope Z_scope.

Lemma ss_app_inv {A} (R : A -> A -> Prop) l1 l2 : StronglySorted R (l1 ++ l2) -> StronglySorted R l1 /\ StronglySorted R l2.
Proof.
  induction l1 as [|x l1 IH]; cbn; intros H; [split; [constructor|auto]|].
  inversion H as [|? ? H1 H2]; subst. destruct (IH H1). apply Forall_app in H2 as [H2 _]. split; auto. constructor; auto.
Qed.

Section TABLE.
Context {V : Type}.
Local Notation tnode := (tnode V).
Local Notation entry := (list Z * V)%type.

(** the entry's key goes on from [p] with a nonzero unit [c] *)
Definition goes (p : list Z) (c : Z) (e : entry) : Prop := exists r, fst e = p ++ c :: r.
Definition starts (p : list Z) (e : entry) : Prop := exists r, fst e = p ++ r.
Variable L : nat.
Definition fine (e : entry) : Prop := Forall (fun u => u <> 0) (fst e) /\ (length (fst e) < L)%nat.
Definition sorted (es : list entry) : Prop := StronglySorted klt (map fst es).

Lemma goes_app p c d r (e : entry) : fst e = p ++ c :: r -> goes p d e -> c = d.
Proof. intros E (r' & E'). rewrite E in E'. apply app_inv_head in E'. congruence. Qed.

Lemma nth_key (p : list Z) c r : nth (length p) (p ++ c :: r) 0 = c.
Proof. rewrite app_nth2, Nat.sub_diag by lia. reflexivity. Qed.

Section LOOP.
Variable rec : list entry -> res tnode.
Variable p : list Z.
Hypothesis Hrec : forall c sh grp, Forall (fun e : entry => (length (fst e) < length p + 1)%nat) sh -> grp <> [] ->
  Forall (goes p c) grp -> sorted grp -> Forall fine grp ->
  exists sub, rec (sh ++ grp) = Ok sub /\ wf sub /\ alive sub /\ entries (p ++ [c]) sub = grp.

Lemma loop_b : forall es sh grp rc val kids, Forall (fun e : entry => (length (fst e) < length p + 1)%nat) sh -> grp <> [] ->
  Forall (goes p rc) grp -> rc <> 0 -> sorted (grp ++ es) -> Forall fine (grp ++ es) ->
  Forall (starts p) es ->
  exists kids', traverse_loop rec (length p) es (sh ++ grp) rc true val kids = Ok (TN val (kids ++ kids')) /\
    centries p kids' = grp ++ es /\ ksorted kids' /\ Forall (fun q => wf (snd q) /\ alive (snd q)) kids' /\
    Forall (fun q => rc <= fst q) kids'.
Proof.
  induction es as [|[k v] es IH]; intros sh grp rc val kids Hsh Hg HG Hrc Hs Hz Hst.
  - rewrite app_nil_r in *. cbn [traverse_loop].
    destruct (Hrec rc sh grp Hsh Hg HG Hs Hz) as (sub & E & W & A & En). rewrite E. cbn [bind].
    exists [(rc, sub)]. split; auto. rewrite centries_cons, En. cbn [centries flat_map]. rewrite app_nil_r. split; auto.
    split; [repeat constructor|]. split; [constructor; [split; auto|constructor]|]. constructor; [cbn; lia|constructor].
  - inversion Hst as [|? ? [r Er] Hst']; subst. cbn [fst] in Er. subst k.
    (* the key is longer than the prefix: it follows a longer one *)
    assert (Hr : r <> []).
    { intros ->. rewrite app_nil_r in *. destruct grp as [|[k0 v0] grp]; [congruence|]. inversion HG as [|? ? [r0 E0] _]; subst. cbn [fst] in E0. subst k0.
      unfold sorted in Hs. cbn in Hs. inversion Hs as [|? ? _ Hf]; subst. rewrite Forall_forall in Hf.
      assert (K : klt (p ++ rc :: r0) p).
      { apply Hf. rewrite map_app. apply in_or_app. right. left. reflexivity. }
      rewrite <- (app_nil_r p) in K at 2. apply klt_app in K. exact K. }
    destruct r as [|c r]; [congruence|]. clear Hr.
    cbn [traverse_loop]. rewrite app_length. cbn [length].
    replace (length p + S (length r) <? length p)%nat with false by (symmetry; apply Nat.ltb_ge; lia).
    replace (length p =? length p + S (length r))%nat with false by (symmetry; apply Nat.eqb_neq; lia).
    rewrite nth_key. replace (rc =? 0) with false by (symmetry; apply Z.eqb_neq; auto).
    assert (Hc0 : c <> 0).
    { apply Forall_app in Hz as [_ Hz]. inversion Hz as [|? ? [Z1 _] _]; subst. cbn [fst] in Z1.
      apply Forall_app in Z1 as [_ Z1]. inversion Z1; auto. }
    destruct (Z.eqb_spec rc c) as [<-|Hne]; cbn [negb].
    + rewrite <- app_assoc.
      destruct (IH sh (grp ++ [(p ++ rc :: r, v)]) rc val kids) as (kids' & E1 & E2 & E3 & E4 & E5); auto.
      * destruct grp; discriminate.
      * apply Forall_app; split; auto. constructor; [exists r; auto|constructor].
      * rewrite <- app_assoc. exact Hs.
      * rewrite <- app_assoc. exact Hz.
      * exists kids'. rewrite <- app_assoc in E2. auto.
    + assert (Hlt : rc < c).
      { destruct grp as [|[k0 v0] grp]; [congruence|]. inversion HG as [|? ? [r0 E0] _]; subst. cbn [fst] in E0. subst k0.
        unfold sorted in Hs. cbn in Hs. inversion Hs as [|? ? _ Hf]; subst. rewrite Forall_forall in Hf.
        assert (K : klt (p ++ rc :: r0) (p ++ c :: r)).
        { apply Hf. rewrite map_app. apply in_or_app. right. left. reflexivity. }
        apply klt_app in K. cbn in K. destruct K as [K|[K _]]; [auto|congruence]. }
      unfold sorted in Hs. rewrite map_app in Hs. apply ss_app_inv in Hs as (Hs1 & Hs2).
      apply Forall_app in Hz as [Hz1 Hz2].
      destruct (Hrec rc sh grp Hsh Hg HG Hs1 Hz1) as (sub & E & W & A & En). rewrite E. cbn [bind].
      destruct (IH [] [(p ++ c :: r, v)] c val (kids ++ [(rc, sub)])) as (kids' & E1 & E2 & E3 & E4 & E5); auto.
      * discriminate.
      * constructor; [exists r; auto|constructor].
      * exists ((rc, sub) :: kids'). cbn [app] in E1. rewrite E1, <- app_assoc. split; auto.
        rewrite centries_cons, En, E2. split; auto.
        split; [apply ksorted_cons; split; auto; eapply Forall_impl; [|exact E5]; cbn; intros; lia|].
        split; [constructor; auto|]. constructor; [cbn; lia|]. eapply Forall_impl; [|exact E5]. cbn; intros; lia.
Qed.
End LOOP.

Lemma traverse_ok : forall f p sh es, Forall (fun e : entry => (length (fst e) < length p)%nat) sh ->
  Forall (starts p) es -> sorted es -> Forall fine es -> (L <= length p + f)%nat -> (0 < f)%nat ->
  exists t, traverse_range f (sh ++ es) (length p) = Ok t /\ wf t /\ entries p t = es.
Proof.
  induction f as [|f IHf]; intros p sh es Hsh Hst Hs Hz Hl Hf; [lia|]. cbn [traverse_range].
  set (rec := fun r => traverse_range f r (S (length p))).
  assert (Hrec : forall c sh grp, Forall (fun e : entry => (length (fst e) < length p + 1)%nat) sh -> grp <> [] ->
    Forall (goes p c) grp -> sorted grp -> Forall fine grp ->
    exists sub, rec (sh ++ grp) = Ok sub /\ wf sub /\ alive sub /\ entries (p ++ [c]) sub = grp).
  { intros c sh' grp S1 S2 S3 S4 S5. unfold rec. replace (S (length p)) with (length (p ++ [c])) by (rewrite app_length; cbn; lia).
    destruct (IHf (p ++ [c]) sh' grp) as (t & E & W & En); auto.
    - eapply Forall_impl; [|exact S1]. cbn. intros. rewrite app_length; cbn; lia.
    - eapply Forall_impl; [|exact S3]. intros e (r & E). exists r. rewrite <- app_assoc. exact E.
    - rewrite app_length; cbn [length]; lia.
    - destruct grp as [|e grp]; [congruence|]. inversion S3 as [|? ? [r E] _]; subst. inversion S5 as [|? ? [_ Le] _]; subst.
      rewrite E, app_length in Le. cbn in Le. lia.
    - exists t. repeat split; auto. destruct t as [[a|] [|k cs]]; [left; discriminate|left; discriminate| |right; discriminate].
      exfalso. cbn in En. congruence. }
  clearbody rec. clear IHf.
  (* the entries too short for this level *)
  assert (K1 : forall sh acc, Forall (fun e : entry => (length (fst e) < length p)%nat) sh ->
     traverse_loop rec (length p) (sh ++ es) acc 0 false None [] = traverse_loop rec (length p) es (acc ++ sh) 0 false None []).
  { clear Hsh. induction sh0 as [|[k v] sh0 IH]; intros acc H; [rewrite app_nil_r; reflexivity|]. inversion H; subst. cbn [fst] in *.
    cbn [app traverse_loop]. replace (length k <? length p)%nat with true by (symmetry; apply Nat.ltb_lt; auto).
    rewrite IH by auto. rewrite <- app_assoc. reflexivity. }
  rewrite K1 by auto. cbn [app]. clear K1.
  (* after them: possibly the prefix itself, then the longer keys *)
  assert (K2 : forall es sh val, Forall (fun e : entry => (length (fst e) < length p + 1)%nat) sh ->
     Forall (fun e => exists c r, fst e = p ++ c :: r) es -> sorted es -> Forall fine es ->
     exists kids, traverse_loop rec (length p) es sh 0 false val [] = Ok (TN val kids) /\ centries p kids = es /\ wf (TN val kids)).
  { clear -Hrec. intros es sh val S1 S2 S3 S4. destruct es as [|[k v] es].
    - cbn. exists []. split; [reflexivity|]. split; [reflexivity|]. constructor; constructor.
    - inversion S2 as [|? ? (c & r & E) S2']; subst. cbn [fst] in E. subst k. cbn [traverse_loop]. rewrite app_length. cbn [length].
      replace (length p + S (length r) <? length p)%nat with false by (symmetry; apply Nat.ltb_ge; lia).
      replace (length p =? length p + S (length r))%nat with false by (symmetry; apply Nat.eqb_neq; lia).
      rewrite nth_key. cbn [Z.eqb].
      assert (Hc0 : c <> 0).
      { inversion S4 as [|? ? [Z1 _] _]; subst. cbn [fst] in Z1. apply Forall_app in Z1 as [_ Z1]. inversion Z1; auto. }
      destruct (loop_b rec p Hrec es sh [(p ++ c :: r, v)] c val []) as (kids & E1 & E2 & E3 & E4 & _); auto.
      + discriminate.
      + constructor; [exists r; auto|constructor].
      + eapply Forall_impl; [|exact S2']. intros e (c' & r' & E'). exists (c' :: r'). exact E'.
      + exists kids. cbn [app] in E1. split; auto. split; auto. constructor; auto. }
  destruct es as [|[k v] es].
  - destruct (K2 [] sh None) as (kids & E & En & W); auto; try constructor.
    { eapply Forall_impl; [|exact Hsh]. cbn; intros; lia. }
    exists (TN None kids). split; [exact E|]. split; [exact W|]. rewrite entries_eq. exact En.
  - inversion Hst as [|? ? [r E] Hst']; subst. cbn [fst] in E. subst k.
    assert (K3 : Forall (fun e => exists c r, fst e = p ++ c :: r) es).
    { apply Forall_forall. intros [k' v'] HI. rewrite Forall_forall in Hst'. destruct (Hst' _ HI) as (r' & E'). cbn [fst] in *. subst k'.
      destruct r' as [|c' r']; [|eauto]. exfalso. unfold sorted in Hs. cbn in Hs. inversion Hs as [|? ? _ Hf']; subst. rewrite Forall_forall in Hf'.
      assert (K : klt (p ++ r) (p ++ [])) by (apply Hf'; apply (in_map fst) in HI; exact HI). apply klt_app in K. destruct r; exact K. }
    destruct r as [|c r].
    + cbn [traverse_loop]. rewrite app_nil_r in *.
      replace (length p <? length p)%nat with false by (symmetry; apply Nat.ltb_ge; lia). rewrite Nat.eqb_refl.
      destruct (K2 es (sh ++ [(p, v)]) (Some v)) as (kids & E & En & W); auto.
      * apply Forall_app; split; [eapply Forall_impl; [|exact Hsh]; cbn; intros; lia|]. constructor; [cbn; lia|constructor].
      * unfold sorted in Hs. cbn in Hs. inversion Hs; auto.
      * inversion Hz; auto.
      * exists (TN (Some v) kids). split; [exact E|]. split; [exact W|]. rewrite entries_eq. cbn [own nval nch app]. rewrite En. reflexivity.
    + destruct (K2 ((p ++ c :: r, v) :: es) sh None) as (kids & E & En & W); auto.
      * eapply Forall_impl; [|exact Hsh]. cbn; intros; lia.
      * constructor; [exists c, r; reflexivity|auto].
      * exists (TN None kids). split; [exact E|]. split; [exact W|]. rewrite entries_eq. exact En.
Qed.
End TABLE.

Section SIZES.
Context {V : Type}.
Local Notation tnode := (tnode V).

Lemma key_units_app (l l' : list (list Z * V)) : key_units (l ++ l') = (key_units l + key_units l')%nat.
Proof. unfold key_units in *. induction l; cbn; auto. rewrite IHl. lia. Qed.
Lemma key_units_map d (l : list (list Z * V)) : key_units (map (fun e => (d ++ fst e, snd e)) l) = (length d * length l + key_units l)%nat.
Proof. unfold key_units in *. induction l as [|e l IH]; cbn; [lia|]. rewrite IH, app_length. lia. Qed.

(** a tree has at most one node per unit of its keys, plus the root *)
Lemma nodes_units (n : tnode) : wf n -> (node_count n <= 1 + key_units (entries [] n))%nat.
Proof.
  induction n as [v cs IH] using tnode_ind2. intros Hw. rewrite node_count_eq, entries_eq, key_units_app. cbn [nch].
  apply wf_inv in Hw as [_ Hf].
  assert (G : (knodes cs <= key_units (centries [] cs))%nat); [|lia].
  clear v. induction cs as [|[c n] cs IHc]; [cbn; lia|]. inversion IH as [|? ? I1 I2]; subst. inversion Hf as [|? ? [W A] F2]; subst. cbn [snd] in *.
  specialize (IHc I2 F2). specialize (I1 W). rewrite centries_cons, key_units_app. cbn [knodes fold_right snd]. fold (knodes cs).
  pose proof (entries_prefix [] n ([] ++ [c])) as E. rewrite app_nil_r in E. rewrite E, key_units_map. cbn [app length].
  pose proof (entries_alive [] n W A). destruct (entries [] n) as [|e l]; [congruence|]. cbn [length] in *. lia.
Qed.

Lemma values_nodes (n : tnode) : (count_values n <= node_count n)%nat.
Proof.
  induction n as [v cs IH] using tnode_ind2. rewrite count_values_eq, node_count_eq.
  assert (G : (kvalues cs <= knodes cs)%nat); [|destruct v; lia].
  induction cs as [|[c n] cs IHc]; [cbn; lia|]. inversion IH as [|? ? I1 I2]; subst. specialize (IHc I2). cbn [knodes kvalues fold_right snd] in *.
  fold (knodes cs) (kvalues cs) in *. lia.
Qed.

Lemma units_tunits T (n : tnode) b : wf n -> Forall (fun e => Forall (in_units T) (fst e)) (entries b n) -> tunits T n.
Proof.
  revert b. induction n as [v cs IH] using tnode_ind2. intros b Hw H. rewrite entries_eq in H. apply Forall_app in H as [_ H]. cbn [nch] in H.
  apply wf_inv in Hw as [_ Hf]. constructor. induction cs as [|[c n] cs IHc]; [constructor|].
  inversion IH as [|? ? I1 I2]; subst. inversion Hf as [|? ? [W A] F2]; subst. cbn [fst snd] in *.
  rewrite centries_cons in H. apply Forall_app in H as [H1 H2]. constructor; [|auto]. cbn [fst snd]. split; [|eapply I1; eauto].
  pose proof (entries_alive (b ++ [c]) n W A) as HA. pose proof (entries_prefix [] n (b ++ [c])) as E. rewrite app_nil_r in E. rewrite E in *.
  destruct (entries [] n) as [|e l]; [cbn in HA; congruence|]. cbn in H1. inversion H1 as [|? ? H3 _]; subst. cbn in H3.
  rewrite <- app_assoc in H3. apply Forall_app in H3 as [_ H3]. cbn in H3. inversion H3; auto.
Qed.
End SIZES.
