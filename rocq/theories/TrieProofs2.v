(** Proofs about the trie model, part 2: removal, the ordered list of entries,
    counting, equality, and what find and erase do with a missing key. *)
From Coq Require Import List ZArith Lia Bool Arith Sorted.
From Verif Require Import Base TrieModel TrieSpec TrieProofs.
Import ListNotations.
Open Scope Z_scope.

Section TRIEP.
Context {V : Type}.
Local Notation tnode := (tnode V).
Local Notation kids := (list (Z * TrieModel.tnode V)).
Local Notation stack := (list (TrieModel.tnode V * nat)).

(** ** Removal *)
Lemma lookup_mid v (l1 l2 : kids) c n k : ksorted (l1 ++ (c, n) :: l2) ->
  lookup (TN v (l1 ++ (c, n) :: l2)) (c :: k) = lookup n k.
Proof.
  intros Hs. rewrite lookup_cons. cbn [nch].
  rewrite (find_child_sorted c _ (length l1) n Hs); auto.
  rewrite nth_error_app2, Nat.sub_diag by lia. reflexivity.
Qed.
Lemma lookup_other v (l1 l2 : kids) c n d k : d <> c ->
  lookup (TN v (l1 ++ (c, n) :: l2)) (d :: k) = lookup (TN v (l1 ++ l2)) (d :: k).
Proof.
  intros Hd. rewrite !lookup_cons. cbn [nch]. rewrite !find_child_app. cbn [find_child].
  destruct (find_child d l1) as [[]|]; auto.
  destruct (Z.eqb_spec c d); [congruence|]. destruct (find_child d l2) as [[]|]; auto.
Qed.
Lemma lookup_removed v (l1 l2 : kids) c n k : ksorted (l1 ++ (c, n) :: l2) ->
  lookup (TN v (l1 ++ l2)) (c :: k) = None.
Proof.
  intros Hs. rewrite lookup_cons. cbn [nch].
  assert (find_child c (l1 ++ l2) = None) as ->; auto.
  apply find_child_none. rewrite map_app, in_app_iff, !in_map_iff.
  apply ksorted_app in Hs as (_ & H2 & H3). apply ksorted_cons in H2 as [_ H2].
  rewrite Forall_forall in H2.
  intros [(p & E & Hp)|(p & E & Hp)].
  - specialize (H3 p (c, n) Hp (or_introl eq_refl)). cbn in H3. lia.
  - apply H2 in Hp. lia.
Qed.
Lemma ksorted_remove (l1 l2 : kids) x : ksorted (l1 ++ x :: l2) -> ksorted (l1 ++ l2).
Proof.
  destruct x as [c n]. rewrite !ksorted_app, ksorted_cons. intros (H1 & (H2 & _) & H3).
  repeat split; auto. intros; apply H3; cbn; auto.
Qed.
Lemma ksorted_replace (l1 l2 : kids) c n n' :
  ksorted (l1 ++ (c, n) :: l2) -> ksorted (l1 ++ (c, n') :: l2).
Proof.
  unfold ksorted. rewrite !map_app. cbn. auto.
Qed.
Lemma remove_at_app {A} (l1 l2 : list A) x : remove_at (length l1) (l1 ++ x :: l2) = l1 ++ l2.
Proof.
  unfold remove_at. rewrite firstn_app, firstn_all, Nat.sub_diag. cbn [firstn]. rewrite app_nil_r. f_equal.
  change (l1 ++ x :: l2) with (l1 ++ [x] ++ l2). rewrite app_assoc, skipn_app.
  rewrite skipn_all2 by (rewrite app_length; cbn; lia).
  rewrite app_length. cbn [length app]. replace (S (length l1) - (length l1 + 1))%nat with O by lia. reflexivity.
Qed.

(** [t'] is [m] with the subtree at path [s] replaced by [n']. *)
Definition replaced (m : tnode) (s : list Z) (n' t' : tnode) : Prop :=
  (forall r, lookup t' (s ++ r) = lookup n' r) /\
  (forall k, (forall r, k <> s ++ r) -> lookup t' k = lookup m k).

Lemma lookup_app (m : tnode) s n r : find_prefix_node m s = Some n -> lookup m (s ++ r) = lookup n r.
Proof.
  revert m; induction s as [|c s IH]; intros m; cbn [find_prefix_node app].
  - intros E; injection E as ->. reflexivity.
  - rewrite lookup_cons. destruct (find_child c (nch m)) as [[]|]; [|discriminate]. auto.
Qed.

Lemma replaced_up (m : tnode) p j rest s c n n' p' t' : wf m ->
  canon m ((p, j) :: rest) s -> nth_error (nch p) j = Some (c, n) ->
  (forall r, lookup p' (c :: r) = lookup n' r) ->
  (forall d r, d <> c -> lookup p' (d :: r) = lookup p (d :: r)) ->
  nval p' = nval p ->
  replaced m s p' t' -> replaced m (s ++ [c]) n' t'.
Proof.
  intros Hw Hc Hn H1 H2 H3 [Ha Hb]. split.
  - intros r. rewrite <- app_assoc, Ha. apply H1.
  - intros k Hk. pose proof (canon_find _ _ _ _ _ Hw Hc) as Hf.
    destruct (find_prefix_node m s) eqn:E; [|discriminate]. injection Hf as ->.
    assert (D : (exists r, k = s ++ r) \/ forall r, k <> s ++ r).
    { clear. revert k; induction s as [|x s IH]; intros k; [left; exists k; auto|].
      destruct k as [|y k]; [right; discriminate|]. destruct (Z.eq_dec x y) as [<-|Hn].
      - destruct (IH k) as [[r ->]|H]; [left; exists r; auto|right; intros r Hr; injection Hr; apply H].
      - right; intros r Hr; injection Hr; congruence. }
    destruct D as [[r ->]|D]; [|auto].
    rewrite Ha, (lookup_app _ _ _ _ E). destruct r as [|d r]; [rewrite !lookup_nil; auto|].
    apply H2. intros ->. apply (Hk r). rewrite <- app_assoc. reflexivity.
Qed.

Lemma nth_split_kids (l : kids) j x : nth_error l j = Some x ->
  exists l1 l2, l = l1 ++ x :: l2 /\ length l1 = j.
Proof. intros H. destruct (nth_error_split _ _ H) as (l1 & l2 & -> & <-). eauto. Qed.

Lemma wf_replace (p : tnode) l1 l2 c n n' : wf p -> nch p = l1 ++ (c, n) :: l2 -> wf n' -> alive n' ->
  wf (TN (nval p) (l1 ++ (c, n') :: l2)).
Proof.
  intros Hp E Hw Ha. apply wf_kids in Hp as [Hs Hf]. rewrite E in *. constructor.
  - eapply ksorted_replace; eauto.
  - apply Forall_app in Hf as [Hf1 Hf2]. inversion Hf2; subst. apply Forall_app; split; auto.
Qed.
Lemma wf_remove (p : tnode) l1 l2 c n : wf p -> nch p = l1 ++ (c, n) :: l2 -> wf (TN (nval p) (l1 ++ l2)).
Proof.
  intros Hp E. apply wf_kids in Hp as [Hs Hf]. rewrite E in *. constructor.
  - eapply ksorted_remove; eauto.
  - apply Forall_app in Hf as [Hf1 Hf2]. inversion Hf2; subst. apply Forall_app; split; auto.
Qed.

Lemma rebuild_spec (m : tnode) st s : wf m -> canon m st s -> forall n i rest n', st = (n, i) :: rest ->
  wf n' -> (rest = [] \/ alive n') -> wf (rebuild n' rest) /\ replaced m s n' (rebuild n' rest).
Proof.
  intros Hw H; induction H as [i0|n0 i0 p j rest0 s c H IH Hn]; intros n i rest n' E Hn' Ha;
    injection E as -> -> <-.
  - split; auto. split; auto. intros k Hk. exfalso. apply (Hk k). reflexivity.
  - cbn [rebuild]. rewrite Hn.
    assert (Hp : wf p) by (apply (canon_wf _ _ _ Hw) in H; inversion H; auto).
    destruct (nth_split_kids _ _ _ Hn) as (l1 & l2 & E & <-).
    rewrite E, set_nth_app.
    destruct Ha as [Ha|Ha]; [discriminate|].
    destruct (IH _ _ _ (TN (nval p) (l1 ++ (c, n') :: l2)) eq_refl) as [I1 I2].
    + eapply wf_replace; eauto.
    + right. right. cbn. destruct l1; discriminate.
    + split; auto. pose proof (wf_kids _ Hp) as [Hs _]. rewrite E in Hs.
      apply (replaced_up m p (length l1) rest0 s c n n' (TN (nval p) (l1 ++ (c, n') :: l2))); auto.
      * intros r. apply lookup_mid. eapply ksorted_replace; eauto.
      * intros d r Hd. rewrite lookup_other by auto.
        destruct p as [pv pc]. cbn [nch nval] in *. subst pc. rewrite lookup_other by auto. reflexivity.
Qed.

Lemma not_alive (n : tnode) : negb (has_value n) && is_leaf n = true -> n = tempty.
Proof. destruct n as [[v|] [|x l]]; cbn; try discriminate. reflexivity. Qed.
Lemma alive_dec (n : tnode) : negb (has_value n) && is_leaf n = false -> alive n.
Proof. destruct n as [[v|] [|x l]]; cbn; try discriminate; [left|left|right]; discriminate. Qed.

Lemma prune_spec (m : tnode) st s : wf m -> canon m st s -> forall n i rest n', st = (n, i) :: rest ->
  wf n' -> wf (prune n' rest) /\ replaced m s n' (prune n' rest).
Proof.
  intros Hw H; induction H as [i0|n0 i0 p j rest0 s c H IH Hn]; intros n i rest n' E Hn';
    injection E as -> -> <-.
  - cbn [prune]. assert (wf n' /\ replaced n [] n' n').
    { split; auto. split; auto. intros k Hk. exfalso. apply (Hk k). reflexivity. }
    destruct (negb (has_value n') && is_leaf n'); auto.
  - cbn [prune]. destruct (negb (has_value n') && is_leaf n') eqn:Ed.
    + apply not_alive in Ed. subst n'.
      assert (Hp : wf p) by (apply (canon_wf _ _ _ Hw) in H; inversion H; auto).
      destruct (nth_split_kids _ _ _ Hn) as (l1 & l2 & E & <-).
      rewrite E, remove_at_app.
      destruct (IH _ _ _ (TN (nval p) (l1 ++ l2)) eq_refl) as [I1 I2].
      * eapply wf_remove; eauto.
      * split; auto. pose proof (wf_kids _ Hp) as [Hs _]. rewrite E in Hs.
        apply (replaced_up m p (length l1) rest0 s c n tempty (TN (nval p) (l1 ++ l2))); auto.
        -- intros r. rewrite lookup_empty. eapply lookup_removed; eauto.
        -- intros d r Hd. destruct p as [pv pc]. cbn [nch nval] in *. subst pc.
           rewrite (lookup_other _ l1 l2 c n) by auto. reflexivity.
    + apply (rebuild_spec m ((n, i) :: (p, j) :: rest0) (s ++ [c])) with (n := n) (i := i); auto.
      * econstructor; eauto.
      * right. apply alive_dec; auto.
Qed.

Lemma split_key (s k : list Z) : (exists r, k = s ++ r) \/ forall r, k <> s ++ r.
Proof.
  revert k; induction s as [|x s IH]; intros k; [left; exists k; auto|].
  destruct k as [|y k]; [right; discriminate|]. destruct (Z.eq_dec x y) as [<-|Hn].
  - destruct (IH k) as [[r ->]|H]; [left; exists r; auto|right; intros r Hr; injection Hr; apply H].
  - right; intros r Hr; injection Hr; congruence.
Qed.

(** Clearing the value of the node at the top of a canonical stack. *)
Lemma clear_spec (m : tnode) n i rest s : wf m -> canon m ((n, i) :: rest) s ->
  let t' := prune (TN None (nch n)) rest in
  wf t' /\ forall k, lookup t' k = if key_eqb s k then None else lookup m k.
Proof.
  intros Hw Hc t'. pose proof (canon_find _ _ _ _ _ Hw Hc) as Hf.
  assert (Hn : wf n) by (apply (canon_wf _ _ _ Hw) in Hc; inversion Hc; auto).
  destruct (prune_spec m _ s Hw Hc n i rest (TN None (nch n)) eq_refl) as [H1 [H2 H3]].
  { destruct n; apply wf_inv in Hn as []; constructor; auto. }
  fold t' in H1, H2, H3. split; auto. intros k.
  destruct (split_key s k) as [[r ->]|Hk].
  - rewrite H2. destruct r as [|c r].
    + rewrite app_nil_r, key_eqb_refl. reflexivity.
    + assert (key_eqb s (s ++ c :: r) = false) as ->.
      { apply key_eqb_neq. intros E. apply (f_equal (@length Z)) in E. rewrite app_length in E. cbn in E. lia. }
      rewrite (lookup_app _ _ _ _ Hf). rewrite !lookup_cons. reflexivity.
  - rewrite H3 by auto. assert (key_eqb s k = false) as ->; auto.
    apply key_eqb_neq. intros <-. apply (Hk []). rewrite app_nil_r; auto.
Qed.

(** A missing key whose walk stops below the child of a node at [q]:
    the walk went from [q] one unit down and no further. *)
Definition overrun (m : tnode) (k q : list Z) : Prop :=
  exists u x r p i sub, k = q ++ u :: x :: r /\
    find_prefix_node m q = Some p /\ find_child u (nch p) = Some (i, sub) /\ find_child x (nch sub) = None.

Lemma fpns_cases (m : tnode) k : wf m ->
  (exists n st, find_prefix_node m k = Some n /\
     find_prefix_node_with_stack [] m k = (n, O) :: st /\ canon m ((n, O) :: st) k) \/
  (find_prefix_node m k = None /\ find_prefix_node_with_stack [] m k = [] /\ (forall q, ~ overrun m k q)) \/
  (exists q p i st, find_prefix_node m k = None /\ overrun m k q /\ find_prefix_node m q = Some p /\
     find_prefix_node_with_stack [] m k = (p, i) :: st /\ canon m ((p, i) :: st) q).
Proof.
  intros Hw. destruct (find_prefix_node m k) as [n|] eqn:E.
  - left. destruct (fpns_canon _ _ _ E) as (st & H1 & H2). eauto 6.
  - right. destruct (fpns_missing0 m [] m k [] (CA0 m O) E) as [[E1 (c & r & -> & Ec)]|H].
    + left. repeat split; auto. intros q (u & x & r' & p & i & sub & Ek & Hq & Hu & Hx).
      destruct q as [|d q]; cbn in Ek, Hq; injection Ek as <- ->.
      * injection Hq as <-. congruence.
      * rewrite Ec in Hq. discriminate.
    + right. destruct H as (q & u & x & r & p & i & sub & st' & -> & Hq & Hu & Hx & Hst & Hcan).
      cbn in Hcan. exists q, p, i, st'. repeat split; auto. red. eauto 12.
Qed.

Lemma overrun_missing m k q : overrun m k q -> find_prefix_node m k = None.
Proof.
  intros (u & x & r & p & i & sub & -> & Hq & Hu & Hx).
  revert m Hq; induction q as [|c q IH]; intros m; cbn.
  - intros E; injection E as ->. rewrite Hu. cbn. rewrite Hx. reflexivity.
  - destruct (find_child c (nch m)) as [[]|]; auto.
Qed.
Lemma overrun_fun m k q q' : overrun m k q -> overrun m k q' -> q = q'.
Proof.
  intros (u & x & r & p & i & sub & -> & Hq & Hu & Hx).
  intros (u' & x' & r' & p' & i' & sub' & E & Hq' & Hu' & Hx').
  revert q' m Hq Hq' E; induction q as [|c q IH]; intros q' m; cbn.
  - intros Em Hq'. injection Em as ->. destruct q' as [|c' q']; auto. cbn in *.
    intros E. injection E as -> E. rewrite Hu in Hq'.
    destruct q' as [|d q']; cbn in *; injection E as -> E.
    + injection Hq' as ->. congruence.
    + rewrite Hx in Hq'. discriminate.
  - destruct q' as [|c' q']; cbn.
    + intros Hq Em E. injection Em as ->. injection E as -> E.
      rewrite Hu' in Hq. destruct q as [|d q]; cbn in *; injection E as -> E.
      * injection Hq as ->. congruence.
      * rewrite Hx' in Hq. discriminate.
    + intros Hq Hq' E. injection E as -> E. f_equal.
      destruct (find_child c' (nch m)) as [[j s]|]; [|discriminate]. eapply IH; eauto.
Qed.

Lemma erase_cases (m : tnode) k : wf m ->
  let '(t', b) := erase k m in
  wf t' /\
  ((exists v, lookup m k = Some v /\ b = true /\ forall k', lookup t' k' = if key_eqb k k' then None else lookup m k') \/
   (lookup m k = None /\ (forall q, overrun m k q -> lookup m q = None) /\ b = false /\ t' = m) \/
   (exists q v, overrun m k q /\ lookup m q = Some v /\ b = true /\
      forall k', lookup t' k' = if key_eqb q k' then None else lookup m k')).
Proof.
  intros Hw. unfold erase.
  destruct (fpns_cases m k Hw) as [(n & st & Hn & -> & Hc)|[(Hn & -> & Hq)|(q & p & i & st & Hn & Ho & Hp & -> & Hc)]].
  - assert (El : lookup m k = nval n) by (unfold lookup; rewrite Hn; auto).
    unfold has_value. destruct (nval n) as [v|] eqn:Ev.
    + destruct (clear_spec m n O st k Hw Hc) as [H1 H2]. split; auto. left. exists v. auto.
    + split; auto. right; left. repeat split; auto. intros q Ho. apply overrun_missing in Ho. congruence.
  - split; auto. right; left. repeat split; auto.
    + unfold lookup; rewrite Hn; auto.
    + intros q Ho. destruct (Hq _ Ho).
  - assert (El : lookup m q = nval p) by (unfold lookup; rewrite Hp; auto).
    unfold has_value. destruct (nval p) as [v|] eqn:Ev.
    + destruct (clear_spec m p i st q Hw Hc) as [H1 H2]. split; auto. right; right. exists q, v. auto.
    + split; auto. right; left. repeat split; auto.
      * unfold lookup; rewrite Hn; auto.
      * intros q' Ho'. rewrite (overrun_fun _ _ _ _ Ho' Ho). congruence.
Qed.

(** ** Entries in order *)
Fixpoint entries (b : list Z) (n : tnode) : list (list Z * V) :=
  match n with
  | TN v cs =>
      match v with Some x => [(b, x)] | None => [] end ++
      flat_map (fun p => match p with (c, sub) => entries (b ++ [c]) sub end) cs
  end.
Definition centries (b : list Z) (cs : kids) : list (list Z * V) :=
  flat_map (fun p => match p with (c, sub) => entries (b ++ [c]) sub end) cs.
Definition own (b : list Z) (n : tnode) : list (list Z * V) :=
  match nval n with Some x => [(b, x)] | None => [] end.
Lemma entries_eq b n : entries b n = own b n ++ centries b (nch n).
Proof. destruct n; reflexivity. Qed.
Lemma centries_cons b c n cs : centries b ((c, n) :: cs) = entries (b ++ [c]) n ++ centries b cs.
Proof. reflexivity. Qed.
Lemma centries_app b l1 l2 : centries b (l1 ++ l2) = centries b l1 ++ centries b l2.
Proof. apply flat_map_app. Qed.

Lemma entries_prefix b n : forall d, entries (d ++ b) n = map (fun e => (d ++ fst e, snd e)) (entries b n).
Proof.
  revert b; induction n as [v cs IH] using tnode_ind2; intros b d.
  rewrite !entries_eq. cbn [nch]. rewrite map_app. f_equal.
  - unfold own; cbn. destruct v; reflexivity.
  - induction IH as [|[c n] cs Hn Hcs IHcs]; auto.
    rewrite !centries_cons, map_app. cbn [snd] in Hn. rewrite <- Hn, IHcs, app_assoc. reflexivity.
Qed.

Lemma entries_alive b n : wf n -> alive n -> entries b n <> [].
Proof.
  revert b; induction n as [v cs IH] using tnode_ind2; intros b Hw Ha.
  destruct v as [x|]; [discriminate|]. destruct cs as [|[c n] cs].
  - destruct Ha as [Ha|Ha]; cbn in Ha; congruence.
  - rewrite entries_eq. cbn [own nval nch app]. unfold own; cbn [nval app]. rewrite centries_cons.
    apply wf_inv in Hw as [_ Hf]. inversion Hf; inversion IH; subst. cbn [snd] in *.
    intros E. apply app_eq_nil in E as [E _]. revert E. apply H5; tauto.
Qed.

Lemma in_entries b n : wf n -> forall k v,
  In (k, v) (entries b n) <-> exists s, k = b ++ s /\ lookup n s = Some v.
Proof.
  revert b; induction n as [x cs IH] using tnode_ind2; intros b Hw k v.
  rewrite entries_eq, in_app_iff. apply wf_inv in Hw as [Hs Hf]. unfold own; cbn [nval nch].
  assert (C : In (k, v) (centries b cs) <-> exists i c n s, nth_error cs i = Some (c, n) /\ k = b ++ c :: s /\ lookup n s = Some v).
  { unfold centries. rewrite in_flat_map. split.
    - intros ([c n] & HI & HE). destruct (In_nth_error _ _ HI) as [i Hi].
      rewrite Forall_forall in IH, Hf. apply (IH _ HI) in HE; [|apply (Hf _ HI)].
      destruct HE as (s & -> & Hl). exists i, c, n, s. rewrite <- app_assoc. auto.
    - intros (i & c & n & s & Hi & -> & Hl). pose proof (nth_error_In _ _ Hi) as HI.
      exists (c, n). split; auto. rewrite Forall_forall in IH, Hf. apply (IH _ HI); [apply (Hf _ HI)|].
      exists s. rewrite <- app_assoc. auto. }
  rewrite C. split.
  - intros [H|(i & c & n & s & Hi & -> & Hl)].
    + exists []. rewrite app_nil_r. destruct x as [x|]; [|destruct H].
      destruct H as [E|[]]; injection E as -> ->. auto.
    + exists (c :: s). split; auto. rewrite lookup_cons. cbn [nch].
      rewrite (find_child_sorted _ _ _ _ Hs Hi). auto.
  - intros (s & -> & Hl). destruct s as [|c s].
    + left. rewrite app_nil_r. rewrite lookup_nil in Hl. cbn in Hl. subst x. left; auto.
    + right. rewrite lookup_cons in Hl. cbn [nch] in Hl.
      destruct (find_child c cs) as [[i n]|] eqn:E; [|discriminate].
      apply find_child_nth in E. exists i, c, n, s. auto.
Qed.

Lemma klt_app d a b : klt (d ++ a) (d ++ b) <-> klt a b.
Proof. induction d as [|x d IH]; cbn; [tauto|]. rewrite IH. intuition lia. Qed.
Lemma klt_irrefl a : ~ klt a a.
Proof. induction a; cbn; intuition lia. Qed.
Lemma klt_trans a b c : klt a b -> klt b c -> klt a c.
Proof.
  revert b c; induction a as [|x a IH]; intros [|y b] [|z c]; cbn; try tauto.
  intros [H1|[-> H1]] [H2|[-> H2]]; try (left; lia). right. split; eauto.
Qed.

Lemma ss_app {A} (R : A -> A -> Prop) l1 l2 :
  StronglySorted R l1 -> StronglySorted R l2 -> (forall x y, In x l1 -> In y l2 -> R x y) ->
  StronglySorted R (l1 ++ l2).
Proof.
  intros H1 H2 H3. induction H1; cbn; auto. constructor.
  - apply IHStronglySorted. intros; apply H3; cbn; auto.
  - apply Forall_app; split; auto. apply Forall_forall. intros; apply H3; cbn; auto.
Qed.

Lemma entries_sorted b n : wf n -> StronglySorted klt (map fst (entries b n)).
Proof.
  revert b; induction n as [x cs IH] using tnode_ind2; intros b Hw.
  pose proof Hw as Hw0. apply wf_inv in Hw as [Hs Hf].
  rewrite entries_eq, map_app. apply ss_app.
  - unfold own; cbn. destruct x; repeat constructor.
  - cbn [nch]. clear Hw0. induction IH as [|[c n] cs Hn Hcs IHcs]; [constructor|].
    rewrite centries_cons, map_app. apply ksorted_cons in Hs as [Hs Hlt]. inversion Hf; subst. cbn [snd] in *.
    apply ss_app; auto.
    + apply Hn. tauto.
    + intros k k' Hk Hk'. apply in_map_iff in Hk as ([k0 v] & <- & Hk). apply in_map_iff in Hk' as ([k1 v'] & <- & Hk').
      apply in_entries in Hk as (s & -> & _); [|tauto].
      unfold centries in Hk'. apply in_flat_map in Hk' as ([d m] & HI & HE).
      rewrite Forall_forall in Hlt, H2. apply in_entries in HE as (s' & -> & _); [|apply (H2 _ HI)].
      apply Hlt in HI. cbn in *. rewrite <- !app_assoc. apply klt_app. cbn. auto.
  - intros k k' Hk Hk'. unfold own in Hk; cbn in Hk. destruct x as [x|]; [|destruct Hk].
    destruct Hk as [<-|[]]. cbn [nch] in Hk'.
    apply in_map_iff in Hk' as ([k1 v'] & <- & Hk'). unfold centries in Hk'.
    apply in_flat_map in Hk' as ([d m] & HI & HE). rewrite Forall_forall in Hf.
    apply in_entries in HE as (s' & -> & _); [|apply (Hf _ HI)]. cbn.
    rewrite <- !app_assoc. rewrite <- (app_nil_r b) at 1. apply klt_app. cbn. auto.
Qed.

Lemma count_entries b n : count_values n = length (entries b n).
Proof.
  revert b; induction n as [x cs IH] using tnode_ind2; intros b.
  rewrite entries_eq, app_length. cbn [count_values]. f_equal.
  - unfold own; cbn. destruct x; reflexivity.
  - cbn [nch]. induction IH as [|[c n] cs Hn Hcs IHcs]; auto.
    rewrite centries_cons, app_length. cbn [snd] in Hn. rewrite <- Hn, IHcs. reflexivity.
Qed.

(** ** Tries with the same content are the same *)
Lemma alive_has_key (n : tnode) : wf n -> alive n -> exists k v, lookup n k = Some v.
Proof.
  intros Hw Ha. pose proof (entries_alive [] n Hw Ha) as He.
  destruct (entries [] n) as [|[k v] l] eqn:E; [congruence|].
  assert (In (k, v) (entries [] n)) by (rewrite E; left; auto).
  apply in_entries in H as (s & -> & Hl); auto. eauto.
Qed.

Lemma wf_ext (l r : tnode) : wf l -> wf r -> (forall k, lookup l k = lookup r k) -> l = r.
Proof.
  revert r; induction l as [x cs IH] using tnode_ind2; intros [y ds] Hl Hr H.
  f_equal; [apply (H [])|].
  apply wf_inv in Hl as [Hs Hf]. apply wf_inv in Hr as [Hs' Hf'].
  assert (H' : forall c k, lookup (TN None cs) (c :: k) = lookup (TN None ds) (c :: k)).
  { intros c k. specialize (H (c :: k)). rewrite !lookup_cons in *. exact H. }
  clear H x y. revert ds Hs' Hf' H'.
  induction IH as [|[c n] cs Hn Hcs IHcs]; intros [|[d m] ds] Hs' Hf' H'; auto.
  - exfalso. inversion Hf'; subst. destruct H1 as [H1 H3].
    destruct (alive_has_key m H1 H3) as (k & v & E). specialize (H' d k).
    rewrite !lookup_cons in H'. cbn in H'. rewrite Z.eqb_refl in H'. cbn in E. congruence.
  - exfalso. inversion Hf; subst. destruct H1 as [H1 H3].
    destruct (alive_has_key n H1 H3) as (k & v & E). specialize (H' c k).
    rewrite !lookup_cons in H'. cbn in H'. rewrite Z.eqb_refl in H'. cbn in E. congruence.
  - apply ksorted_cons in Hs as [Hs Hlt]. apply ksorted_cons in Hs' as [Hs' Hlt'].
    rewrite Forall_forall in Hlt, Hlt'. inversion Hf; inversion Hf'; subst. cbn [snd] in *.
    assert (c = d) as <-.
    { destruct (Z.lt_trichotomy c d) as [L|[L|L]]; auto; exfalso.
      - destruct (alive_has_key n) as (k & v & E); try tauto. specialize (H' c k).
        rewrite !lookup_cons in H'. cbn in H'. rewrite Z.eqb_refl in H'.
        destruct (Z.eqb_spec d c); [lia|].
        assert (find_child c ds = None) as En.
        { apply find_child_none. intros HI. apply in_map_iff in HI as (p & <- & Hp). apply Hlt' in Hp. lia. }
        rewrite En in H'. congruence.
      - destruct (alive_has_key m) as (k & v & E); try tauto. specialize (H' d k).
        rewrite !lookup_cons in H'. cbn in H'. rewrite Z.eqb_refl in H'.
        destruct (Z.eqb_spec c d); [lia|].
        assert (find_child d cs = None) as En.
        { apply find_child_none. intros HI. apply in_map_iff in HI as (p & <- & Hp). apply Hlt in Hp. lia. }
        rewrite En in H'. congruence. }
    f_equal.
    + f_equal. apply Hn; try tauto. intros k. specialize (H' c k). rewrite !lookup_cons in H'. cbn in H'.
      rewrite Z.eqb_refl in H'. exact H'.
    + apply IHcs; auto. intros e k. specialize (H' e k). rewrite !lookup_cons in *. cbn in H'.
      cbn [nch]. destruct (Z.eqb_spec c e) as [<-|He].
      * assert (find_child c cs = None) as ->.
        { apply find_child_none. intros HI. apply in_map_iff in HI as (p & Ep & Hp). apply Hlt in Hp. lia. }
        assert (find_child c ds = None) as ->; auto.
        apply find_child_none. intros HI. apply in_map_iff in HI as (p & Ep & Hp). apply Hlt' in Hp. lia.
      * destruct (find_child e cs) as [[]|], (find_child e ds) as [[]|]; auto.
Qed.

Lemma equal_nodes_eq (veqb : V -> V -> bool) (l r : tnode) : (forall a b, veqb a b = true <-> a = b) ->
  equal_nodes veqb l r = true <-> l = r.
Proof.
  intros Hv. revert r; induction l as [x cs IH] using tnode_ind2; intros [y ds].
  cbn [equal_nodes nval nch]. rewrite !andb_true_iff, Nat.eqb_eq.
  assert (E1 : (match x with Some a => match y with Some b => veqb a b | None => false end
               | None => match y with Some _ => false | None => true end end) = true <-> x = y).
  { destruct x, y; rewrite ?Hv; split; intros; subst; try congruence; try (injection H; auto). }
  rewrite E1. clear E1.
  assert (E2 : length cs = length ds ->
    ((fix go ls rs := match ls with
        | (a, x0) :: ls' => match rs with (b, y0) :: rs' => (a =? b) && equal_nodes veqb x0 y0 && go ls' rs' | [] => true end
        | [] => true end) cs ds = true <-> cs = ds)).
  { clear x y. revert ds. induction IH as [|[c n] cs Hn Hcs IHcs]; intros [|[d m] ds]; try discriminate; [tauto|].
    cbn [length]. intros L. injection L as L. rewrite !andb_true_iff, Z.eqb_eq, (IHcs ds L). cbn [snd] in Hn. rewrite Hn.
    split; [intros [[-> ->] ->]; auto|intros E; injection E as -> -> ->; auto]. }
  split.
  - intros [[-> L] H]. apply E2 in H; auto. subst; auto.
  - intros E. injection E as -> ->. repeat split; auto. apply E2; auto.
Qed.
End TRIEP.
