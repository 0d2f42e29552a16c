(** Proofs about the trie model, part 4: stepping back from keys that other keys extend, and
    from the end of a trie that stores the empty key. *)
From Coq Require Import List ZArith Lia Bool Arith Sorted.
From Verif Require Import Base TrieModel TrieSpec TrieProofs TrieProofs2 TrieProofs3.
Import ListNotations.
Open Scope Z_scope.

Section B.
Context {V : Type}.
Local Notation tnode := (tnode V).
Local Notation iter := (iter V).
Local Notation stack := (list (TrieModel.tnode V * nat)).

Lemma canon_lookup (m : tnode) st n i s : wf m -> canon m ((n, i) :: st) s -> lookup m s = nval n.
Proof. intros Hw Hc. unfold lookup. now rewrite (canon_find _ _ _ _ _ Hw Hc). Qed.

Lemma app_last_split (a b : list Z) (s : list Z) c : s ++ [c] = a ++ b -> b <> [] -> exists b', s = a ++ b'.
Proof.
  intros E N. destruct (exists_last N) as (b' & d & ->). rewrite app_assoc in E. apply app_inj_tail in E as [-> _]. eauto.
Qed.

Lemma app_len_inj (a : list Z) : forall b c d, a ++ b = c ++ d -> length a = length c -> a = c /\ b = d.
Proof.
  induction a as [|x a IH]; intros b [|y c] d E L; cbn in *; try lia; auto.
  injection E as -> E. destruct (IH b c d E) as [-> ->]; [lia|auto].
Qed.

Lemma canon_root (m p : tnode) j s : canon m [(p, j)] s -> p = m /\ s = [].
Proof. intros H. inversion H; auto. Qed.

Lemma dec_inner_spec (m : tnode) b0 : wf m -> forall f n i rest s, canon m ((n, i) :: rest) s -> rest <> [] -> (length rest <= f)%nat ->
  (exists s1 r q j rest' v, s = s1 ++ r /\ s1 <> [] /\ r <> [] /\ canon m ((q, j) :: rest') s1 /\ nval q = Some v /\ (exists sub, nth_error (nch q) j = Some (hd 0 r, sub)) /\
     dec_inner f ((n, i) :: rest) (b0 ++ s) = Ok (q, (q, j) :: rest', b0 ++ s1) /\
     (forall s2 r2, s = s2 ++ r2 -> r2 <> [] -> (length s1 < length s2)%nat -> lookup m s2 = None)) \/
  ((forall s2 r2, s = s2 ++ r2 -> s2 <> [] -> r2 <> [] -> lookup m s2 = None) /\
   exists j c sub t, nth_error (nch m) j = Some (c, sub) /\ s = c :: t /\
     ((j = O /\ dec_inner f ((n, i) :: rest) (b0 ++ s) = Undef) \/
      exists j' q rest' s' v E', j = S j' /\ dec_inner f ((n, i) :: rest) (b0 ++ s) = Ok (q, (q, O) :: rest', b0 ++ s') /\
        canon m ((q, O) :: rest') s' /\ nval q = Some v /\ centries [] (firstn j (nch m)) = E' ++ [(s', v)])).
Proof.
  intros Hw. induction f as [|f IH]; intros n i rest s Hc Hr Hf.
  - destruct rest; [congruence|cbn in Hf; lia].
  - inversion Hc as [|? ? p j rest0 s0 c Hc0 Hn]; subst; [congruence|].
    destruct rest0 as [|r1 rest1].
    + right. destruct (canon_root _ _ _ _ Hc0) as [-> ->]. cbn [app] in *. split.
      * intros s2 r2 E N2 Nr. destruct s2 as [|x s2]; [congruence|]. cbn in E. injection E as _ E.
        symmetry in E. apply app_eq_nil in E as [_ ->]. congruence.
      * exists j, c, n, []. split; [exact Hn|]. split; [reflexivity|]. cbn [dec_inner tl].
        replace (removelast (b0 ++ [c])) with (b0 ++ []) by (rewrite removelast_last, app_nil_r; reflexivity).
        destruct j as [|j]; [left; split; reflexivity|right].
        destruct (descend_prev_spec m b0 m j [] [] Hw Hc0) as (q & rest' & s' & v & E' & E1 & E2 & E3 & _ & E5).
        { assert (S j < length (nch m))%nat by (apply nth_error_Some; congruence). lia. }
        exists j, q, rest', s', v, E'. split; [reflexivity|]. rewrite E1. cbn [bind]. unfold has_value. rewrite E3. auto.
    + cbn [dec_inner tl]. rewrite rl_app. unfold has_value. destruct (nval p) as [v|] eqn:Ev.
      * left. exists s0, [c], p, j, (r1 :: rest1), v. split; [reflexivity|].
        split; [inversion Hc0; subst; intros E; apply app_eq_nil in E as [_ E]; discriminate|].
        split; [discriminate|]. split; [exact Hc0|]. split; [exact Ev|]. split; [exists n; exact Hn|]. split; [reflexivity|].
        intros s2 r2 E N L. exfalso. destruct (app_last_split _ _ _ _ E N) as [b' ->]. rewrite app_length in L. lia.
      * destruct (IH p j (r1 :: rest1) s0 Hc0 ltac:(discriminate)) as [H|H]; [cbn [length] in *; lia| |].
        -- left. destruct H as (s1 & r & q & j1 & rest' & v & -> & H1 & H2 & H3 & H4 & H0 & H5 & H6).
           exists s1, (r ++ [c]), q, j1, rest', v. rewrite app_assoc. split; [reflexivity|]. split; [exact H1|].
           split; [destruct r; discriminate|]. split; [exact H3|]. split; [exact H4|]. split; [destruct r; [congruence|exact H0]|]. split; [exact H5|].
           intros s2 r2 E N L. destruct (app_last_split _ _ _ _ E N) as [b' E'].
           destruct b' as [|x b']; [|apply (H6 s2 (x :: b') E'); auto; discriminate].
           rewrite app_nil_r in E'. rewrite <- E', (canon_lookup _ _ _ _ _ Hw Hc0). exact Ev.
        -- right. destruct H as (H1 & j1 & c1 & sub & t & H2 & -> & H3). split.
           ++ intros s2 r2 E N2 N. destruct (app_last_split _ _ _ _ E N) as [b' E'].
              destruct b' as [|x b']; [|apply (H1 s2 (x :: b') E'); auto; discriminate].
              rewrite app_nil_r in E'. rewrite <- E', (canon_lookup _ _ _ _ _ Hw Hc0). exact Ev.
           ++ exists j1, c1, sub, (t ++ [c]). auto.
Qed.

Lemma ksorted_firstn (l : list (Z * tnode)) j c sub : ksorted l -> nth_error l j = Some (c, sub) ->
  (forall d n, In (d, n) (firstn j l) -> d < c) /\ (forall d n, In (d, n) (skipn j l) -> c <= d).
Proof.
  intros Hs Hn. rewrite (kids_split _ _ _ Hn) in Hs. apply ksorted_app in Hs as (H1 & H2 & H3).
  split.
  - intros d n Hd. specialize (H3 (d, n) (c, sub) Hd (or_introl eq_refl)). exact H3.
  - intros d n Hd. rewrite (skipn_nth _ _ _ Hn) in Hd. destruct Hd as [E|Hd]; [injection E as <- _; lia|].
    apply ksorted_cons in H2 as [_ H2]. rewrite Forall_forall in H2. specialize (H2 _ Hd). cbn in H2. lia.
Qed.

Lemma in_centries b (cs : list (Z * tnode)) k v : In (k, v) (centries b cs) <-> exists d n, In (d, n) cs /\ In (k, v) (entries (b ++ [d]) n).
Proof.
  unfold centries. rewrite in_flat_map. split.
  - intros ([d n] & H1 & H2). eauto.
  - intros (d & n & H1 & H2). exists (d, n). auto.
Qed.

Lemma in_left (m : tnode) j c sub k v : wf m -> nth_error (nch m) j = Some (c, sub) ->
  In (k, v) (centries [] (firstn j (nch m))) <-> exists d t, k = d :: t /\ d < c /\ lookup m k = Some v.
Proof.
  intros Hw Hn. destruct (wf_kids _ Hw) as [Hs Hf]. destruct (ksorted_firstn _ _ _ _ Hs Hn) as [L R]. rewrite Forall_forall in Hf.
  assert (A : forall d n, In (d, n) (nch m) -> wf n) by (intros d n H; apply (Hf (d, n) H)).
  assert (E : forall k, In (k, v) (entries [] m) <-> lookup m k = Some v).
  { intros k0. rewrite (in_entries [] m Hw). split; [intros (s & -> & H); exact H|intros H; exists k0; auto]. }
  assert (F : nch m = firstn j (nch m) ++ skipn j (nch m)) by (symmetry; apply firstn_skipn).
  split.
  - intros H. pose proof H as H0. rewrite in_centries in H. destruct H as (d & n & Hi & H).
    assert (Hin : In (d, n) (nch m)) by (rewrite F; apply in_or_app; auto).
    pose proof H as H2. rewrite (in_entries _ n (A d n Hin)) in H2. destruct H2 as (s & -> & _). exists d, s.
    split; [reflexivity|]. split; [eapply L; eauto|]. apply E. rewrite entries_eq. apply in_or_app. right. rewrite F, centries_app. apply in_or_app; auto.
  - intros (d & t & -> & Hd & H). apply E in H. rewrite entries_eq in H. apply in_app_or in H. destruct H as [H|H].
    { unfold own in H. destruct (nval m); [|destruct H]. destruct H as [H|[]]. discriminate. }
    rewrite F, centries_app in H. apply in_app_or in H. destruct H as [H|H]; [exact H|]. exfalso.
    rewrite in_centries in H. destruct H as (e & n & Hi & H).
    assert (Hin : In (e, n) (nch m)) by (rewrite F; apply in_or_app; auto).
    rewrite (in_entries _ n (A e n Hin)) in H. destruct H as (s & Es & _). cbn in Es. injection Es as -> _.
    specialize (R _ _ Hi). lia.
Qed.

Lemma ss_split {A} (R : A -> A -> Prop) l1 : forall l2, StronglySorted R (l1 ++ l2) ->
  StronglySorted R l1 /\ StronglySorted R l2 /\ (forall x y, In x l1 -> In y l2 -> R x y).
Proof.
  induction l1 as [|a l1 IH]; intros l2 H; cbn [app] in H; [repeat split; auto; [constructor|intros x y []]|].
  inversion H as [|? ? H1 H2]; subst. destruct (IH _ H1) as (I1 & I2 & I3). apply Forall_app in H2 as [F1 F2]. rewrite Forall_forall in F2.
  split; [constructor; auto|]. split; [auto|]. intros x y [<-|Hx] Hy; auto.
Qed.

Lemma left_sorted (m : tnode) j : wf m -> StronglySorted klt (map fst (centries [] (firstn j (nch m)))).
Proof.
  intros Hw. pose proof (entries_sorted [] m Hw) as H. rewrite entries_eq in H. rewrite <- (firstn_skipn j (nch m)), centries_app, !map_app in H.
  apply ss_split in H as (_ & H & _). apply ss_split in H as (H & _). exact H.
Qed.
End B.
