(** Proofs about the trie model: content of a trie as a finite map from keys,
    well-formedness, insertion, removal, counting and equality. *)
From Coq Require Import List ZArith Lia Bool Arith Sorted.
From Verif Require Import Base TrieModel.
Import ListNotations.
Open Scope Z_scope.

Section TRIEP.
Context {V : Type}.
Local Notation tnode := (tnode V).
Local Notation kids := (list (Z * TrieModel.tnode V)).

(** ** Induction over nodes *)
Lemma tnode_ind2 (P : tnode -> Prop) :
  (forall v cs, Forall (fun p => P (snd p)) cs -> P (TN v cs)) -> forall n, P n.
Proof.
  intros H. fix IH 1. intros [v cs]. apply H.
  induction cs as [|[c n] cs IHcs]; constructor.
  - apply IH.
  - apply IHcs.
Qed.

(** ** Keys *)
Lemma key_eqb_spec a b : key_eqb a b = true <-> a = b.
Proof.
  revert b; induction a as [|x a IH]; intros [|y b]; cbn; try (split; congruence).
  rewrite andb_true_iff, Z.eqb_eq, IH. split; intros H; [destruct H|injection H]; intros; subst; auto.
Qed.
Lemma key_eqb_refl a : key_eqb a a = true.
Proof. apply key_eqb_spec; reflexivity. Qed.
Lemma key_eqb_neq a b : key_eqb a b = false <-> a <> b.
Proof.
  destruct (key_eqb a b) eqn:E; split; intros; try congruence.
  - apply key_eqb_spec in E; congruence.
  - intros ->. rewrite key_eqb_refl in E; congruence.
Qed.

(** ** Sorted children *)
Definition ksorted (l : kids) : Prop := StronglySorted Z.lt (map fst l).
Definition alive (n : tnode) : Prop := nval n <> None \/ nch n <> [].
Inductive wf : tnode -> Prop :=
| WF v cs : ksorted cs -> Forall (fun p => wf (snd p) /\ alive (snd p)) cs -> wf (TN v cs).

Lemma wf_inv v cs : wf (TN v cs) -> ksorted cs /\ Forall (fun p => wf (snd p) /\ alive (snd p)) cs.
Proof. inversion 1; subst; auto. Qed.
Lemma wf_kids n : wf n -> ksorted (nch n) /\ Forall (fun p => wf (snd p) /\ alive (snd p)) (nch n).
Proof. destruct n; intros; apply wf_inv in H; auto. Qed.
Lemma wf_child n i c sub : wf n -> nth_error (nch n) i = Some (c, sub) -> wf sub /\ alive sub.
Proof.
  intros H E. apply wf_kids in H as [_ H]. rewrite Forall_forall in H.
  apply nth_error_In in E. apply (H _ E).
Qed.

Lemma ksorted_cons c n l : ksorted ((c, n) :: l) <-> ksorted l /\ Forall (fun p => c < fst p) l.
Proof.
  unfold ksorted; cbn [map fst]. split.
  - intros H; inversion H; subst. split; auto. rewrite Forall_map in *. auto.
  - intros [H1 H2]; constructor; auto. rewrite Forall_map; auto.
Qed.
Lemma ksorted_app l1 l2 :
  ksorted (l1 ++ l2) <-> ksorted l1 /\ ksorted l2 /\ (forall p q, In p l1 -> In q l2 -> fst p < fst q).
Proof.
  induction l1 as [|[c n] l1 IH]; cbn [app].
  - split; [intros H; repeat split; auto; [constructor|intros ? ? []]|tauto].
  - rewrite !ksorted_cons, IH, Forall_app. rewrite !Forall_forall. split.
    + intros ((H1 & H2 & H3) & H4 & H5). repeat split; auto.
      intros p q [<-|Hp] Hq; [apply H5; auto|auto].
    + intros ((H1 & H2) & H3 & H4). repeat split; auto.
      * intros; apply H4; cbn; auto.
      * intros x Hx; apply (H4 (c, n) x); cbn; auto.
Qed.

(** ** find_child *)
Lemma find_child_nth c l i (n : tnode) : find_child c l = Some (i, n) -> nth_error l i = Some (c, n).
Proof.
  revert i; induction l as [|[k m] l IH]; cbn; intros i; [discriminate|].
  destruct (k =? c) eqn:E.
  - intros H; injection H as <- <-. apply Z.eqb_eq in E; subst; reflexivity.
  - destruct (find_child c l) as [[j q]|]; [|discriminate].
    intros H; injection H as <- <-. cbn. auto.
Qed.
Lemma find_child_sorted c l i (n : tnode) :
  ksorted l -> nth_error l i = Some (c, n) -> find_child c l = Some (i, n).
Proof.
  revert i; induction l as [|[k m] l IH]; intros i Hs; [destruct i; discriminate|].
  apply ksorted_cons in Hs as [Hs Hlt]. destruct i as [|i]; cbn.
  - intros H; injection H as <- <-. rewrite Z.eqb_refl; reflexivity.
  - intros H. pose proof (nth_error_In _ _ H) as HI. rewrite Forall_forall in Hlt.
    apply Hlt in HI; cbn in HI. destruct (Z.eqb_spec k c); [lia|].
    rewrite (IH _ Hs H). reflexivity.
Qed.
Lemma find_child_none c (l : kids) : find_child c l = None <-> ~ In c (map fst l).
Proof.
  induction l as [|[k m] l IH]; cbn; [tauto|].
  destruct (Z.eqb_spec k c); [subst; split; [discriminate|intros []; auto]|].
  destruct (find_child c l) as [[]|]; split; try discriminate; try tauto.
  intros H. exfalso. apply H. destruct IH as [_ IH].
  destruct (in_dec Z.eq_dec c (map fst l)); auto. discriminate IH; auto.
Qed.

(** lower_bound splits a sorted child list *)
Lemma lower_bound_split c (l : kids) : ksorted l ->
  exists l1 l2, l = l1 ++ l2 /\ lower_bound c l = length l1 /\
    (forall p, In p l1 -> fst p < c) /\ (forall p, In p l2 -> c <= fst p).
Proof.
  induction l as [|[k m] l IH]; intros Hs.
  - exists [], []. cbn; tauto.
  - apply ksorted_cons in Hs as [Hs Hlt]. cbn. destruct (Z.ltb_spec k c).
    + destruct (IH Hs) as (l1 & l2 & -> & E & H1 & H2).
      exists ((k, m) :: l1), l2. cbn. rewrite E. repeat split; auto.
      intros p [<-|Hp]; auto.
    + exists [], ((k, m) :: l). cbn. repeat split; auto; [tauto|].
      intros p [<-|Hp]; auto. rewrite Forall_forall in Hlt. apply Hlt in Hp. lia.
Qed.

(** ** Content *)
Definition lookup (n : tnode) (k : list Z) : option V :=
  match find_prefix_node n k with Some m => nval m | None => None end.

Lemma lookup_nil n : lookup n [] = nval n.
Proof. reflexivity. Qed.
Lemma lookup_cons n c k : lookup n (c :: k) =
  match find_child c (nch n) with Some (_, m) => lookup m k | None => None end.
Proof. unfold lookup; cbn. destruct (find_child c (nch n)) as [[]|]; reflexivity. Qed.

Lemma lookup_empty k : lookup (@tempty V) k = None.
Proof. destruct k; reflexivity. Qed.

Lemma find_child_app c (l1 l2 : kids) :
  find_child c (l1 ++ l2) =
  match find_child c l1 with
  | Some x => Some x
  | None => match find_child c l2 with Some (i, m) => Some ((length l1 + i)%nat, m) | None => None end
  end.
Proof.
  induction l1 as [|[k m] l1 IH]; cbn.
  - destruct (find_child c l2) as [[]|]; reflexivity.
  - destruct (k =? c); auto. rewrite IH. destruct (find_child c l1) as [[]|]; auto.
    destruct (find_child c l2) as [[]|]; auto.
Qed.

(** Shape of one level of an insertion *)
Lemma insert_shape c k v (n : tnode) : wf n ->
  exists l1 l2 old, nch n = l1 ++ match old with Some m => (c, m) :: l2 | None => l2 end /\
    insert_into_tree (c :: k) v n =
      TN (nval n) (l1 ++ (c, insert_into_tree k v (match old with Some m => m | None => tempty end)) :: l2) /\
    (forall p, In p l1 -> fst p < c) /\ (forall p, In p l2 -> c < fst p).
Proof.
  intros Hw. apply wf_kids in Hw as [Hs _].
  destruct (lower_bound_split c (nch n) Hs) as (l1 & l2 & E & El & H1 & H2).
  cbn [insert_into_tree]. rewrite El, E.
  rewrite E in Hs. apply ksorted_app in Hs as (_ & Hs2 & _).
  rewrite nth_error_app2, Nat.sub_diag by lia.
  destruct l2 as [|[d m] l2].
  - cbn [nth_error]. exists l1, [], None. rewrite app_nil_r. split; auto.
    split; [|split; auto; intros ? []].
    unfold insert_at. rewrite firstn_all, skipn_all. reflexivity.
  - cbn [nth_error]. apply ksorted_cons in Hs2 as [Hs2 Hlt]. rewrite Forall_forall in Hlt.
    assert (c <= d) by (apply (H2 (d, m)); cbn; auto).
    destruct (Z.ltb_spec c d).
    + exists l1, ((d, m) :: l2), None. split; auto. split.
      * unfold insert_at. rewrite firstn_app, firstn_all, Nat.sub_diag, skipn_app, skipn_all, Nat.sub_diag.
        cbn [firstn skipn app]. rewrite app_nil_r. reflexivity.
      * split; auto. intros p [<-|Hp]; cbn; auto. apply Hlt in Hp. lia.
    + assert (d = c) by lia. subst d. exists l1, l2, (Some m). split; auto. split.
      * rewrite set_nth_app. reflexivity.
      * split; auto.
Qed.

Lemma insert_alive k v (n : tnode) : wf n -> alive (insert_into_tree k v n).
Proof.
  intros Hw. destruct k as [|c k].
  - left. cbn. discriminate.
  - destruct (insert_shape c k v n Hw) as (l1 & l2 & old & _ & -> & _).
    right. cbn. destruct l1; discriminate.
Qed.

Lemma wf_tempty : wf (@tempty V).
Proof. constructor; constructor. Qed.

Lemma insert_wf k v (n : tnode) : wf n -> wf (insert_into_tree k v n).
Proof.
  revert n; induction k as [|c k IH]; intros n Hw.
  - destruct n as [x cs]; apply wf_inv in Hw as []; constructor; auto.
  - destruct (insert_shape c k v n Hw) as (l1 & l2 & old & E & -> & H1 & H2).
    pose proof (wf_kids _ Hw) as [Hs Hf]. rewrite E in Hs, Hf.
    assert (Hold : wf (match old with Some m => m | None => tempty end)).
    { destruct old as [m|]; [|apply wf_tempty].
      apply Forall_app in Hf as [_ Hf]. inversion Hf; subst. tauto. }
    constructor.
    + apply ksorted_app. rewrite ksorted_cons. apply ksorted_app in Hs as (Ha & Hb & Hc).
      assert (ksorted l2) by (destruct old; [apply ksorted_cons in Hb; tauto|auto]).
      repeat split; auto.
      * apply Forall_forall; intros p Hp; apply H2; auto.
      * intros p q Hp [<-|Hq]; cbn; auto. apply H1 in Hp. apply H2 in Hq. lia.
    + apply Forall_app in Hf as [Hf1 Hf2]. apply Forall_app; split; auto.
      constructor.
      * cbn [snd]. split; [apply IH; auto|apply insert_alive; auto].
      * destruct old; [inversion Hf2; auto|auto].
Qed.

Lemma find_child_lt c (l : kids) : (forall p, In p l -> fst p < c) -> find_child c l = None.
Proof.
  intros H. apply find_child_none. intros HI. apply in_map_iff in HI as (p & <- & Hp).
  apply H in Hp; lia.
Qed.

Lemma insert_lookup k v (n : tnode) k' : wf n ->
  lookup (insert_into_tree k v n) k' = if key_eqb k k' then Some v else lookup n k'.
Proof.
  revert n k'; induction k as [|c k IH]; intros n k' Hw.
  - destruct n as [x cs]. destruct k' as [|c' k']; reflexivity.
  - destruct (insert_shape c k v n Hw) as (l1 & l2 & old & E & -> & H1 & H2).
    pose proof (wf_kids _ Hw) as [Hs Hf]. rewrite E in Hs, Hf.
    destruct k' as [|c' k']; [reflexivity|].
    rewrite !lookup_cons. cbn [nch key_eqb]. rewrite E.
    rewrite !find_child_app.
    destruct (Z.eqb_spec c c') as [<-|Hne].
    + rewrite (find_child_lt c l1 H1). cbn [find_child]. rewrite Z.eqb_refl. cbn [andb].
      rewrite IH.
      * destruct (key_eqb k k') eqn:Ek; auto.
        destruct old as [m|]; cbn [find_child]; [rewrite Z.eqb_refl; reflexivity|].
        assert (find_child c l2 = None) as ->.
        { apply find_child_none. intros HI. apply in_map_iff in HI as (p & Ep & Hp).
          apply H2 in Hp; lia. }
        apply lookup_empty.
      * destruct old as [m|]; [|apply wf_tempty].
        apply Forall_app in Hf as [_ Hf]. inversion Hf; subst. tauto.
    + cbn [andb].
      destruct (find_child c' l1) as [[]|]; auto.
      destruct old as [m|]; cbn [find_child]; destruct (Z.eqb_spec c c'); try lia;
        destruct (find_child c' l2) as [[]|]; auto.
Qed.

(** ** Canonical stacks *)
Local Notation stack := (list (TrieModel.tnode V * nat)).

(** [canon m st s]: [st] (top first) leads from [m] at the bottom along path [s]. *)
Inductive canon (m : tnode) : stack -> list Z -> Prop :=
| CA0 i : canon m [(m, i)] []
| CA1 n i p j rest s c :
    canon m ((p, j) :: rest) s -> nth_error (nch p) j = Some (c, n) ->
    canon m ((n, i) :: (p, j) :: rest) (s ++ [c]).

Lemma canon_retop m n i j rest s : canon m ((n, i) :: rest) s -> canon m ((n, j) :: rest) s.
Proof. intros H; inversion H; subst; [constructor|econstructor; eauto]. Qed.

Lemma canon_wf m st s : wf m -> canon m st s -> Forall (fun p => wf (fst p)) st.
Proof.
  intros Hw H; induction H.
  - constructor; auto.
  - constructor; auto. cbn. inversion IHcanon; subst. cbn in *.
    eapply wf_child; eauto.
Qed.

Lemma canon_find m st n i s : wf m -> canon m ((n, i) :: st) s ->
  find_prefix_node m s = Some n.
Proof.
  intros Hw H. remember ((n, i) :: st) as st0 eqn:E. revert n i st E.
  induction H; intros n0 i0 st0 E; injection E as -> -> <-.
  - reflexivity.
  - specialize (IHcanon _ _ _ eq_refl).
    assert (Hp : wf p) by (apply (canon_wf _ _ _ Hw) in H; inversion H; auto).
    clear H. revert m Hw IHcanon. induction s as [|d s IHs]; intros m Hw Hf; cbn in *.
    + injection Hf as ->. apply wf_kids in Hp as [Hs _].
      rewrite (find_child_sorted _ _ _ _ Hs H0). reflexivity.
    + destruct (find_child d (nch m)) as [[k q]|] eqn:Ed; [|discriminate].
      apply IHs; auto. apply find_child_nth in Ed. eapply wf_child; eauto.
Qed.

Lemma fpns_app (st : stack) (n : tnode) k1 k2 m st' :
  find_prefix_node_with_stack st n k1 = (m, O) :: st' -> find_prefix_node n k1 = Some m ->
  (length st' = length st + length k1)%nat ->
  find_prefix_node_with_stack st n (k1 ++ k2) = find_prefix_node_with_stack st' m k2.
Proof.
  revert st n; induction k1 as [|c k1 IH]; intros st n; cbn.
  - intros E _ _. injection E as -> ->. reflexivity.
  - destruct (find_child c (nch n)) as [[i sub]|]; [|discriminate].
    intros E F L. apply IH; auto. cbn. lia.
Qed.

(** The stack that find builds for an existing node is the canonical one. *)
Lemma fpns_exists (st : stack) (n : tnode) k m : find_prefix_node n k = Some m ->
  exists st', find_prefix_node_with_stack st n k = (m, O) :: st' /\
    (length st' = length st + length k)%nat.
Proof.
  revert st n; induction k as [|c k IH]; intros st n; cbn.
  - intros E; injection E as ->. exists st. split; auto.
  - destruct (find_child c (nch n)) as [[i sub]|]; [|discriminate].
    intros E. destruct (IH ((n, i) :: st) _ E) as (st' & -> & L). exists st'. split; auto.
    cbn in L. lia.
Qed.

Lemma canon_fpns m st n s : wf m -> canon m ((n, O) :: st) s ->
  find_prefix_node_with_stack [] m s = (n, O) :: st.
Proof.
  intros Hw H. remember ((n, O) :: st) as st0 eqn:E.
  assert (G : forall n i st, st0 = (n, i) :: st -> find_prefix_node_with_stack [] m s = (n, O) :: st).
  { clear n st E. induction H as [i|n i p j rest s c H IH Hn]; intros n0 i0 st0 E; injection E as -> -> <-.
    - reflexivity.
    - specialize (IH _ _ _ eq_refl).
      pose proof (canon_find _ _ _ _ _ Hw H) as Hf.
      destruct (fpns_exists [] m s p Hf) as (st' & E' & L). rewrite IH in E'. injection E' as <-.
      rewrite (fpns_app [] m s [c] p rest IH Hf L). cbn.
      assert (Hp : wf p) by (apply (canon_wf _ _ _ Hw) in H; inversion H; auto).
      apply wf_kids in Hp as [Hs _].
      rewrite (find_child_sorted _ _ _ _ Hs Hn). reflexivity. }
  rewrite E. exact (G _ _ _ E).
Qed.

Lemma fpns_canon0 m0 st n k m s : canon m0 ((n, O) :: st) s -> find_prefix_node n k = Some m ->
  exists st', find_prefix_node_with_stack st n k = (m, O) :: st' /\ canon m0 ((m, O) :: st') (s ++ k).
Proof.
  revert st n s; induction k as [|c k IH]; intros st n s Hc; cbn.
  - intros E; injection E as ->. exists st. rewrite app_nil_r. auto.
  - destruct (find_child c (nch n)) as [[i sub]|] eqn:Ef; [|discriminate].
    intros E. replace (s ++ c :: k) with ((s ++ [c]) ++ k) by (rewrite <- app_assoc; reflexivity).
    apply (IH ((n, i) :: st) sub (s ++ [c])); auto.
    apply find_child_nth in Ef. econstructor; eauto. eapply canon_retop; eauto.
Qed.
Lemma fpns_canon m n s : find_prefix_node m s = Some n ->
  exists st, find_prefix_node_with_stack [] m s = (n, O) :: st /\ canon m ((n, O) :: st) s.
Proof. intros H. apply (fpns_canon0 m [] m s n []); auto. constructor. Qed.

(** What find_prefix_node_with_stack leaves when the node does not exist:
    the stack of the parent of the deepest node on the way. *)
Lemma fpns_missing0 m0 st n k s : canon m0 ((n, O) :: st) s -> find_prefix_node n k = None ->
  (find_prefix_node_with_stack st n k = st /\ exists c r, k = c :: r /\ find_child c (nch n) = None) \/
  exists q u x r p i sub st', k = q ++ u :: x :: r /\
    find_prefix_node n q = Some p /\ find_child u (nch p) = Some (i, sub) /\
    find_child x (nch sub) = None /\
    find_prefix_node_with_stack st n k = (p, i) :: st' /\ canon m0 ((p, i) :: st') (s ++ q).
Proof.
  revert st n s; induction k as [|c k IH]; intros st n s Hc; cbn; [discriminate|].
  destruct (find_child c (nch n)) as [[i sub]|] eqn:Ef; [|left; split; eauto].
  intros E. right.
  assert (Hc' : canon m0 ((sub, O) :: (n, i) :: st) (s ++ [c])).
  { apply find_child_nth in Ef. econstructor; eauto. eapply canon_retop; eauto. }
  destruct (IH ((n, i) :: st) sub (s ++ [c]) Hc' E) as [[E1 (x & r & -> & Ex)]|(q & u & x & r & p & j & sub' & st' & -> & Hq & Hu & Hx & Hst & Hcan)].
  - exists [], c, x, r, n, i, sub, st. rewrite E1. repeat split; auto.
    rewrite app_nil_r. eapply canon_retop; eauto.
  - exists (c :: q), u, x, r, p, j, sub', st'. cbn. rewrite Ef. repeat split; auto.
    rewrite <- app_assoc in Hcan. exact Hcan.
Qed.
End TRIEP.
