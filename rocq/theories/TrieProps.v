(** Properties C19-C23, C63 and C64: mdds::trie_map behaves as an ordered map
    from keys to values. *)
From Coq Require Import List ZArith Lia Bool Arith Sorted.
From Verif Require Import Base TrieModel TrieSpec TrieProofs TrieProofs2 TrieProofs3.
Import ListNotations.
Open Scope Z_scope.

Section BRIDGE.
Context {V : Type}.
Local Notation tnode := (tnode V).

Definition shows (t : tnode) (m : content) : Prop := wf t /\ forall k, lookup t k = m k.

Lemma c_set_eqb (m : @content V) k v k' : c_set m k v k' = if key_eqb k k' then Some v else m k'.
Proof.
  unfold c_set. destruct (list_eq_dec Z.eq_dec k k') as [<-|H].
  - rewrite key_eqb_refl; auto.
  - apply key_eqb_neq in H. rewrite H. auto.
Qed.
Lemma c_del_eqb (m : @content V) k k' : c_del m k k' = if key_eqb k k' then None else m k'.
Proof.
  unfold c_del. destruct (list_eq_dec Z.eq_dec k k') as [<-|H].
  - rewrite key_eqb_refl; auto.
  - apply key_eqb_neq in H. rewrite H. auto.
Qed.

Lemma lookup_some_node (t : tnode) k : lookup t k <> None -> exists n, find_prefix_node t k = Some n.
Proof. unfold lookup. destruct (find_prefix_node t k); eauto. congruence. Qed.

Lemma find_prefix_wf (t : tnode) k n : wf t -> find_prefix_node t k = Some n -> wf n.
Proof.
  revert t; induction k as [|c k IH]; intros t Hw; cbn; [intros E; injection E as <-; auto|].
  destruct (find_child c (nch t)) as [[i s]|] eqn:E; [|discriminate]. apply IH.
  apply find_child_nth in E. eapply wf_child; eauto.
Qed.

Lemma find_prefix_alive (t : tnode) c p n : wf t -> find_prefix_node t (c :: p) = Some n -> alive n.
Proof.
  revert t c; induction p as [|d p IH]; intros t c Hw; cbn.
  - destruct (find_child c (nch t)) as [[i s]|] eqn:Ec; [|discriminate]. intros E; injection E as <-.
    apply find_child_nth in Ec. eapply wf_child; eauto.
  - destruct (find_child c (nch t)) as [[i s]|] eqn:Ec; [|discriminate]. apply find_child_nth in Ec.
    apply (IH s d). eapply wf_child; eauto.
Qed.

Lemma overreaches_iff (t : tnode) m k q : shows t m ->
  overreaches m k q <-> overrun t k q /\ lookup t q <> None.
Proof.
  intros [Hw Hm]. split.
  - intros (u & x & r & -> & Hq & (s & Hs) & Hn). rewrite <- Hm in Hq, Hs. split; auto.
    destruct (lookup_some_node _ _ Hq) as [p Hp].
    rewrite (lookup_app _ _ _ _ Hp), lookup_cons in Hs.
    destruct (find_child u (nch p)) as [[i sub]|] eqn:Eu; [|congruence].
    exists u, x, r, p, i, sub. repeat split; auto.
    destruct (find_child x (nch sub)) as [[j ss]|] eqn:Ex; auto. exfalso.
    pose proof (find_prefix_wf _ _ _ Hw Hp) as Hwp. apply find_child_nth in Eu as Eu'.
    destruct (wf_child _ _ _ _ Hwp Eu') as [Hws _]. apply find_child_nth in Ex as Ex'.
    destruct (wf_child _ _ _ _ Hws Ex') as [Hwss Hass].
    destruct (alive_has_key ss Hwss Hass) as (s' & v & Hv).
    specialize (Hn s'). rewrite <- Hm, (lookup_app _ _ _ _ Hp), lookup_cons, Eu, lookup_cons, Ex in Hn. congruence.
  - intros [(u & x & r & p & i & sub & -> & Hp & Hu & Hx) Hq]. exists u, x, r. rewrite <- Hm. repeat split; auto.
    + pose proof (find_prefix_wf _ _ _ Hw Hp) as Hwp. apply find_child_nth in Hu as Eu'.
      destruct (wf_child _ _ _ _ Hwp Eu') as [Hws Has].
      destruct (alive_has_key sub Hws Has) as (s' & v & Hv). exists s'.
      rewrite <- Hm, (lookup_app _ _ _ _ Hp), lookup_cons, Hu. congruence.
    + intros s. rewrite <- Hm, (lookup_app _ _ _ _ Hp), lookup_cons, Hu, lookup_cons, Hx. reflexivity.
Qed.

Lemma trun_snoc (os : list (top V)) o : trun (os ++ [o]) = tstep (trun os) o.
Proof. unfold trun. rewrite fold_left_app. reflexivity. Qed.

Lemma erase_shows (t : tnode) m k : shows t m ->
  let '(t', b) := erase k t in
  (exists v, m k = Some v /\ b = true /\ shows t' (c_del m k)) \/
  (m k = None /\ (forall q, ~ overreaches m k q) /\ b = false /\ t' = t) \/
  (exists q v, overreaches m k q /\ m q = Some v /\ b = true /\ shows t' (c_del m q)).
Proof.
  intros S. pose proof S as [Hw Hm]. pose proof (erase_cases t k Hw) as H. destruct (erase k t) as [t' b].
  destruct H as [Hw' [(v & H1 & H2 & H3)|[(H1 & H2 & H3 & H4)|(q & v & H1 & H2 & H3 & H4)]]].
  - left. exists v. rewrite <- Hm. repeat split; auto. intros k'. rewrite H3, c_del_eqb, Hm. reflexivity.
  - right; left. rewrite <- Hm. repeat split; auto. intros q Hq. apply (overreaches_iff t m k q S) in Hq as [Ho Hn]. apply Hn; auto.
  - right; right. exists q, v. rewrite <- Hm. repeat split; auto.
    + apply (overreaches_iff t m k q S). split; auto. congruence.
    + intros k'. rewrite H4, c_del_eqb, Hm. reflexivity.
Qed.

Lemma over_not_stored (m : @content V) k q : overreaches m k q -> m k = None.
Proof. intros (u & x & r & -> & _ & _ & H). apply H. Qed.
Lemma over_unique (t : tnode) m k q q' : shows t m -> overreaches m k q -> overreaches m k q' -> q = q'.
Proof.
  intros S H H'. apply (overreaches_iff t m k q S) in H as [H _]. apply (overreaches_iff t m k q' S) in H' as [H' _].
  eapply overrun_fun; eauto.
Qed.

Lemma shows_ext (t : tnode) m m' : shows t m -> (forall k, m' k = m k) -> shows t m'.
Proof. intros [H1 H2] E. split; auto. intros; rewrite E; auto. Qed.

Lemma calls_show os m : after_calls os m -> shows (trun os) m.
Proof.
  induction 1 as [m H|os m k v m' H IH E|os m m' H IH E|os m k m' H IH Ho E|os m k q m' H IH Ho E].
  - split; [apply wf_tempty|]. intros k. rewrite H. apply lookup_empty.
  - destruct IH as [Hw Hm]. rewrite trun_snoc. cbn. split; [apply insert_wf; auto|].
    intros k'. unfold insert. rewrite insert_lookup, E, c_set_eqb, Hm by auto. reflexivity.
  - rewrite trun_snoc. cbn. split; [apply wf_tempty|]. intros k. rewrite E. apply lookup_empty.
  - rewrite trun_snoc. cbn. pose proof (erase_shows _ _ k IH) as HE. destruct (erase k (trun os)) as [t' b]. cbn.
    destruct HE as [(v & H1 & H2 & H3)|[(H1 & H2 & H3 & ->)|(q & v & H1 & _)]].
    + eapply shows_ext; eauto.
    + eapply shows_ext; eauto. intros k'. rewrite E, c_del_eqb. destruct (key_eqb k k') eqn:Ek; auto.
      apply key_eqb_spec in Ek; subst; auto.
    + destruct (Ho _ H1).
  - rewrite trun_snoc. cbn. pose proof (erase_shows _ _ k IH) as HE. destruct (erase k (trun os)) as [t' b]. cbn.
    destruct HE as [(v & H1 & H2 & H3)|[(H1 & H2 & H3 & ->)|(q' & v & H1 & H2 & H3 & H4)]].
    + rewrite (over_not_stored _ _ _ Ho) in H1. discriminate.
    + destruct (H2 _ Ho).
    + rewrite (over_unique _ _ _ _ _ IH H1 Ho) in H4. eapply shows_ext; eauto.
Qed.

Lemma calls_exist (os : list (top V)) : exists m, after_calls os m.
Proof.
  induction os as [|o os [m IH]] using rev_ind; [exists c_empty; constructor; reflexivity|].
  pose proof (calls_show _ _ IH) as S. destruct o as [k v|k|].
  - exists (c_set m k v). econstructor; eauto.
  - pose proof (erase_shows _ _ k S) as HE. destruct (erase k (trun os)) as [t' b].
    destruct HE as [(v & H1 & _)|[(H1 & H2 & _)|(q & v & H1 & _)]].
    + exists (c_del m k). eapply AC_erase; eauto. intros q Ho. rewrite (over_not_stored _ _ _ Ho) in H1. discriminate.
    + exists (c_del m k). eapply AC_erase; eauto.
    + exists (c_del m q). eapply AC_erase_over; eauto.
  - exists c_empty. eapply AC_clear; eauto.
Qed.

(** listings *)
Lemma listing_entries (t : tnode) m : shows t m -> listing m (entries [] t).
Proof.
  intros [Hw Hm]. split; [apply entries_sorted; auto|]. intros k v. rewrite in_entries by auto. split.
  - intros (s & -> & Hl). rewrite <- Hm. auto.
  - intros H. exists k. rewrite Hm. auto.
Qed.
Lemma sorted_ext (l1 l2 : list (list Z * V)) :
  StronglySorted klt (map fst l1) -> StronglySorted klt (map fst l2) ->
  (forall e, In e l1 <-> In e l2) -> l1 = l2.
Proof.
  revert l2; induction l1 as [|[k v] l1 IH]; intros l2 H1 H2 H.
  - destruct l2 as [|e l2]; auto. exfalso. apply (H e). left; auto.
  - destruct l2 as [|[k' v'] l2]; [exfalso; apply (H (k, v)); left; auto|].
    cbn in H1, H2. inversion H1 as [|? ? S1 F1]; inversion H2 as [|? ? S2 F2]; subst. rewrite Forall_forall in F1, F2.
    assert (E : (k, v) = (k', v')).
    { destruct (proj1 (H (k, v)) (or_introl eq_refl)) as [E|HI]; auto.
      destruct (proj2 (H (k', v')) (or_introl eq_refl)) as [E|HI']; auto. exfalso.
      apply (in_map fst) in HI, HI'. apply F2 in HI. apply F1 in HI'. cbn in *.
      apply (klt_irrefl k). eapply klt_trans; eauto. }
    injection E as <- <-. f_equal. apply IH; auto. intros [a b]. split; intros Hin.
    + destruct (proj1 (H (a, b)) (or_intror Hin)) as [E|]; auto. injection E as <- <-.
      apply (in_map fst) in Hin. apply F1 in Hin. destruct (klt_irrefl _ Hin).
    + destruct (proj2 (H (a, b)) (or_intror Hin)) as [E|]; auto. injection E as <- <-.
      apply (in_map fst) in Hin. apply F2 in Hin. destruct (klt_irrefl _ Hin).
Qed.
Lemma listing_unique (t : tnode) m l : shows t m -> listing m l -> l = entries [] t.
Proof.
  intros S [H1 H2]. destruct (listing_entries _ _ S) as [H3 H4]. apply sorted_ext; auto.
  intros [k v]. rewrite H2, H4. tauto.
Qed.

Lemma split_unique (A B R R' : list (list Z * V)) k v v' :
  StronglySorted klt (map fst (A ++ (k, v) :: R)) -> A ++ (k, v) :: R = B ++ (k, v') :: R' -> R = R'.
Proof.
  revert B; induction A as [|a A IH]; intros [|b B] Hs F; cbn in F, Hs.
  - injection F as _ F. auto.
  - injection F as <- F. exfalso. inversion Hs as [|? ? _ H2]; subst. rewrite Forall_forall in H2.
    apply (klt_irrefl k). apply H2. rewrite map_app. apply in_or_app. right. left; auto.
  - injection F as -> F. exfalso. inversion Hs as [|? ? _ H2]; subst. rewrite Forall_forall in H2.
    apply (klt_irrefl k). apply (H2 k). rewrite map_app. apply in_or_app. right. left; auto.
  - injection F as <- F. inversion Hs; subst. apply (IH B); auto.
Qed.

(** find *)
Lemma find_pos (t : tnode) m k v : shows t m -> m k = Some v -> exists R x, find t k = Ok x /\ pos t [] k v R x.
Proof. intros [Hw Hm] H. apply find_stored; auto. rewrite Hm; auto. Qed.
Lemma pos_deref (t : tnode) b0 s v R x : pos t b0 s v R x -> iter_deref x = Ok (b0 ++ s, v).
Proof. intros (n & rest & _ & _ & -> & _). reflexivity. Qed.
Lemma pos_not_end (t : tnode) b0 s v R x y : pos t b0 s v R x -> at_end t b0 y -> iter_eqb x y = Ok false.
Proof. intros (n & rest & _ & _ & -> & _) (_ & _ & E). unfold iter_eqb. rewrite E. reflexivity. Qed.
Lemma find_missing (t : tnode) m k : shows t m -> m k = None -> (forall q, ~ overreaches m k q) -> find t k = Ok (tend t).
Proof.
  intros S H Ho. pose proof S as [Hw Hm]. unfold find.
  destruct (fpns_cases t k Hw) as [(n & st & Hn & -> & Hc)|[(Hn & -> & Hq)|(q & p & i & st & Hn & Hov & Hp & -> & Hc)]]; auto.
  - rewrite <- Hm in H. unfold lookup in H. rewrite Hn in H. unfold has_value. rewrite H. reflexivity.
  - assert (El : lookup t q = nval p) by (unfold lookup; rewrite Hp; auto).
    unfold has_value. destruct (nval p) as [v|] eqn:Ev; auto. exfalso. apply (Ho q).
    apply (overreaches_iff t m k q S). split; auto. congruence.
Qed.
Lemma find_over (t : tnode) m k q v : shows t m -> overreaches m k q -> m q = Some v ->
  exists x, find t k = Ok x /\ iter_deref x = Ok (q, v) /\ iter_eqb x (tend t) = Ok false.
Proof.
  intros S Ho Hv. pose proof S as [Hw Hm]. unfold find.
  pose proof (proj1 (overreaches_iff t m k q S) Ho) as [Hov _].
  destruct (fpns_cases t k Hw) as [(n & st & Hn & -> & Hc)|[(Hn & -> & Hq)|(q' & p & i & st & Hn & Hov' & Hp & -> & Hc)]].
  - apply overrun_missing in Hov. congruence.
  - destruct (Hq _ Hov).
  - rewrite (overrun_fun _ _ _ _ Hov' Hov) in *. clear Hov'.
    assert (El : nval p = Some v) by (rewrite <- Hv, <- Hm; unfold lookup; rewrite Hp; auto).
    unfold has_value. rewrite El. unfold build_key_buffer. rewrite (path_units_canon _ _ _ Hc). cbn [bind mk_iter].
    rewrite El. eexists. split; [reflexivity|]. split; reflexivity.
Qed.

(** walking *)
Lemma entries_ext_prefix (n : tnode) p : entries p n = tagged p (entries [] n).
Proof. rewrite <- (app_nil_r p) at 1. apply entries_prefix. Qed.

Lemma centries_nonroot (t : tnode) m : shows t m ->
  listing (c_del m []) (centries [] (nch t)).
Proof.
  intros S. pose proof (listing_entries _ _ S) as [H1 H2]. pose proof S as [Hw Hm].
  rewrite entries_eq in H1, H2. split.
  - clear H2. unfold own in H1. destruct (nval t); auto. cbn in H1. inversion H1; auto.
  - intros k v. rewrite c_del_eqb. specialize (H2 k v). rewrite in_app_iff in H2. destruct k as [|c k]; cbn [key_eqb].
    + split; [|discriminate]. intros HI. exfalso. unfold centries in HI. apply in_flat_map in HI as ([d n] & HI & HE).
      apply in_entries in HE as (s & E & _); [discriminate|].
      apply wf_kids in Hw as [_ Hf]. rewrite Forall_forall in Hf. apply (Hf _ HI).
    + rewrite <- H2. split; auto. intros [HI|]; auto. exfalso. unfold own in HI. destruct (nval t); [destruct HI as [E|[]]; discriminate|destruct HI].
Qed.
End BRIDGE.

(** * C19 *)
Section C19.
Context {V : Type}.
(** find of a stored key gives an iterator to that entry; size() counts the
    entries.  [m] is the content after the calls [os]. *)
Theorem C19_find (os : list (top V)) m k v : after_calls os m -> m k = Some v ->
  exists x, find (trun os) k = Ok x /\ iter_deref x = Ok (k, v) /\ iter_eqb x (tend (trun os)) = Ok false.
Proof.
  intros H Hk. pose proof (calls_show _ _ H) as S. destruct (find_pos _ _ _ _ S Hk) as (R & x & E & P).
  exists x. split; auto. split; [apply (pos_deref _ _ _ _ _ _ P)|]. eapply pos_not_end; eauto. apply tend_at_end.
Qed.
Theorem C19_find_after_insert (os : list (top V)) k v :
  exists x, find (trun (os ++ [Insert k v])) k = Ok x /\ iter_deref x = Ok (k, v).
Proof.
  destruct (calls_exist os) as [m H].
  destruct (C19_find (os ++ [Insert k v]) (c_set m k v) k v) as (x & E & D & _).
  - econstructor; eauto.
  - unfold c_set. destruct (list_eq_dec Z.eq_dec k k); congruence.
  - eauto.
Qed.
Theorem C19_size (os : list (top V)) m : after_calls os m ->
  exists l, listing m l /\ count_values (trun os) = length l /\ is_empty (trun os) = (length l =? 0)%nat.
Proof.
  intros H. pose proof (calls_show _ _ H) as S. exists (entries [] (trun os)). split; [apply listing_entries; auto|].
  split; [apply count_entries|]. destruct S as [Hw _]. pose proof (entries_alive [] _ Hw) as Ha.
  unfold is_empty, is_leaf, has_value. destruct (trun os) as [[v|] [|[c n] cs]]; auto.
  destruct (entries [] (TN None ((c, n) :: cs))) eqn:E; auto. exfalso. apply Ha; auto. right. discriminate.
Qed.
(** every history of calls has a content *)
Theorem C19_total (os : list (top V)) : exists m, after_calls os m.
Proof. apply calls_exist. Qed.
End C19.

(** * C20 *)
Section C20.
Context {V : Type}.
(** find(k) of a key that is not stored is end(); partial: for keys that do not
    overreach a stored key *)
Theorem C20_find_partial (os : list (top V)) m k : after_calls os m -> m k = None ->
  (forall q, ~ overreaches m k q) ->
  exists x, find (trun os) k = Ok x /\ iter_eqb x (tend (trun os)) = Ok true.
Proof.
  intros H Hk Ho. pose proof (calls_show _ _ H) as S. exists (tend (trun os)). split; [eapply find_missing; eauto|].
  eapply at_end_eqb; apply tend_at_end.
Qed.
Theorem C20_erase_partial (os : list (top V)) m k : after_calls os m -> (forall q, ~ overreaches m k q) ->
  snd (erase k (trun os)) = (match m k with Some _ => true | None => false end) /\
  after_calls (os ++ [Erase k]) (c_del m k) /\
  (m k = None -> fst (erase k (trun os)) = trun os).
Proof.
  intros H Ho. pose proof (calls_show _ _ H) as S. pose proof (erase_shows _ _ k S) as HE.
  destruct (erase k (trun os)) as [t' b]. cbn [fst snd]. split; [|split].
  - destruct HE as [(v & -> & -> & _)|[(-> & _ & -> & _)|(q & v & H1 & _)]]; auto. destruct (Ho _ H1).
  - eapply AC_erase; eauto.
  - intros Hk. destruct HE as [(v & H1 & _)|[(_ & _ & _ & ->)|(q & v & H1 & _)]]; auto; [congruence|destruct (Ho _ H1)].
Qed.
(** what happens to the remaining keys: find yields, and erase removes, the
    shorter key [q] *)
Theorem C20_overreach (os : list (top V)) m k q v : after_calls os m -> overreaches m k q -> m q = Some v ->
  (exists x, find (trun os) k = Ok x /\ iter_deref x = Ok (q, v) /\ iter_eqb x (tend (trun os)) = Ok false) /\
  snd (erase k (trun os)) = true /\ after_calls (os ++ [Erase k]) (c_del m q).
Proof.
  intros H Ho Hv. pose proof (calls_show _ _ H) as S. split; [eapply find_over; eauto|]. split.
  - pose proof (erase_shows _ _ k S) as HE. destruct (erase k (trun os)) as [t' b].
    destruct HE as [(w & H1 & -> & _)|[(_ & H1 & _)|(q' & w & _ & _ & -> & _)]]; auto. destruct (H1 _ Ho).
  - eapply AC_erase_over; eauto.
Qed.
(** the content is exactly what find shows *)
Theorem C20_content (os : list (top V)) m : after_calls os m -> forall k,
  (exists x, find (trun os) k = Ok x) /\ (m k <> None -> exists x v, find (trun os) k = Ok x /\ iter_deref x = Ok (k, v) /\ m k = Some v).
Proof.
  intros H k. pose proof (calls_show _ _ H) as S. split.
  - destruct (m k) as [v|] eqn:E.
    + destruct (find_pos _ _ _ _ S E) as (R & x & Ex & _). eauto.
    + pose proof (erase_shows _ _ k S) as HE. destruct (erase k (trun os)) as [t' b].
      destruct HE as [(w & H1 & _)|[(_ & H1 & _)|(q' & w & H1 & H2 & _)]]; [congruence| |].
      * rewrite (find_missing _ _ _ S E H1). eauto.
      * destruct (find_over _ _ _ _ _ S H1 H2) as (x & Ex & _). eauto.
  - intros Hk. destruct (m k) as [v|] eqn:E; [|congruence].
    destruct (find_pos _ _ _ _ S E) as (R & x & Ex & P). exists x, v. repeat split; auto. apply (pos_deref _ _ _ _ _ _ P).
Qed.
End C20.
(** With "a" and "ab" stored, find("abc") yields "a", and erase("abc") removes it. *)
Theorem C20_refuted :
  ~ (forall (os : list (top nat)) m k, after_calls os m -> m k = None ->
       exists x, find (trun os) k = Ok x /\ iter_eqb x (tend (trun os)) = Ok true) /\
  ~ (forall (os : list (top nat)) m k, after_calls os m -> m k = None -> snd (erase k (trun os)) = false).
Proof.
  set (os := [Insert [97] 1%nat; Insert [97; 98] 2%nat]).
  assert (A : after_calls os (c_set (c_set c_empty [97] 1%nat) [97; 98] 2%nat)).
  { apply (AC_insert [Insert [97] 1%nat] (c_set c_empty [97] 1%nat)); [|reflexivity].
    apply (AC_insert [] c_empty); [|reflexivity]. constructor. reflexivity. }
  split.
  - intros H. destruct (H os _ [97; 98; 99] A eq_refl) as (x & E & F). vm_compute in E. injection E as <-.
    vm_compute in F. discriminate.
  - intros H. specialize (H os _ [97; 98; 99] A eq_refl). vm_compute in H. discriminate.
Qed.

(** * C21 *)
Section C21.
Context {V : Type}.
Lemma c_prefix_iff (m : @content V) p k v : c_prefix p m k = Some v <-> exists s, k = p ++ s /\ m k = Some v.
Proof.
  unfold c_prefix. destruct (list_eq_dec Z.eq_dec p (firstn (length p) k)) as [E|E].
  - split; [|intros (s & _ & H); auto]. intros H. exists (skipn (length p) k). split; auto.
    rewrite <- (firstn_skipn (length p) k) at 1. congruence.
  - split; [discriminate|]. intros (s & -> & _). exfalso. apply E.
    rewrite firstn_app, firstn_all, Nat.sub_diag. cbn. rewrite app_nil_r. reflexivity.
Qed.
(** Iterating prefix_search(p) lists the entries whose key starts with [p], in
    order; partial: not for the empty prefix on an empty trie. *)
Theorem C21_prefix_search_partial (os : list (top V)) m p : after_calls os m ->
  (p <> [] \/ exists k, m k <> None) ->
  exists l first, listing (c_prefix p m) l /\
    rbegin (prefix_search (trun os) p) = Ok first /\
    forall fuel, (length l + 2 <= fuel)%nat ->
      walk fuel first (rend (prefix_search (trun os) p)) = Ok l.
Proof.
  intros H Hp. pose proof (calls_show _ _ H) as [Hw Hm]. unfold prefix_search.
  destruct (find_prefix_node (trun os) p) as [n|] eqn:E.
  - pose proof (find_prefix_wf _ _ _ Hw E) as Hn.
    assert (Ha : alive n).
    { destruct p as [|c p].
      - cbn in E. injection E as <-. destruct Hp as [|[k Hk]]; [congruence|].
        destruct (trun os) as [[v|] [|x cs]]; [left|left|exfalso|right]; try discriminate.
        rewrite <- Hm in Hk. destruct k; cbn in Hk; congruence.
      - exact (find_prefix_alive _ _ _ _ Hw E). }
    destruct (rbegin_spec n p Hn Ha) as (s & v & R & x & Ee & Eb & P).
    exists (tagged p ((s, v) :: R)), x. split; [|split; auto].
    + rewrite <- Ee, <- (entries_ext_prefix n). split; [apply entries_sorted; auto|].
      intros k w. rewrite in_entries, c_prefix_iff by auto. split.
      * intros (r & -> & Hl). exists r. split; auto. rewrite <- Hm, (lookup_app _ _ _ _ E). auto.
      * intros (r & -> & Hl). exists r. split; auto. rewrite <- Hm, (lookup_app _ _ _ _ E) in Hl. auto.
    + intros f Hf. apply (walk_spec n p s v R x); auto; [apply rend_at_end|].
      unfold tagged in Hf. rewrite map_length in Hf. cbn in Hf. lia.
  - exists [], empty_iter. split; [|split; auto].
    + split; [constructor|]. intros k v. split; [intros []|]. intros Hc. apply c_prefix_iff in Hc as (r & -> & Hk).
      exfalso. rewrite <- Hm in Hk. unfold lookup in Hk.
      assert (find_prefix_node (trun os) (p ++ r) = None) as En; [|rewrite En in Hk; discriminate].
      clear -E. revert E. generalize (trun os). induction p as [|c p IH]; cbn; [discriminate|].
      intros t. destruct (find_child c (nch t)) as [[]|]; auto.
    + intros [|f] Hf; [cbn in Hf; lia|]. reflexivity.
Qed.
End C21.
(** prefix_search("").begin() on an empty trie reads the first child of a node
    that has none. *)
Theorem C21_refuted :
  ~ (forall (os : list (top nat)) m p, after_calls os m ->
       exists l first, listing (c_prefix p m) l /\ rbegin (prefix_search (trun os) p) = Ok first /\
         forall fuel, (length l + 2 <= fuel)%nat -> walk fuel first (rend (prefix_search (trun os) p)) = Ok l).
Proof.
  intros H. destruct (H [] c_empty []) as (l & x & _ & E & _); [constructor; reflexivity|].
  vm_compute in E. discriminate.
Qed.

(** * C22 *)
Section C22.
Context {V : Type}.
(** begin()..end() lists all entries in order, size() of them; partial: when
    the empty key is not stored *)
Theorem C22_iteration_partial (os : list (top V)) m : after_calls os m -> m [] = None ->
  exists l first, listing m l /\ length l = count_values (trun os) /\
    tbegin (trun os) = Ok first /\
    forall fuel, (length l + 2 <= fuel)%nat -> walk fuel first (tend (trun os)) = Ok l.
Proof.
  intros H H0. pose proof (calls_show _ _ H) as S. pose proof S as [Hw Hm].
  exists (entries [] (trun os)).
  assert (Hv : nval (trun os) = None) by (rewrite <- lookup_nil, Hm; auto).
  destruct (nch (trun os)) as [|x0 cs0] eqn:En.
  - exists (tend (trun os)). split; [apply listing_entries; auto|]. split; [symmetry; apply count_entries|].
    split; [unfold tbegin; rewrite En; auto|]. rewrite entries_eq. unfold own. rewrite Hv, En. cbn [app centries flat_map].
    intros [|f] Hf; [cbn in Hf; lia|]. cbn [walk]. rewrite (at_end_eqb (trun os) []) by apply tend_at_end. reflexivity.
  - destruct (tbegin_spec (trun os) Hw) as (s & v & R & x & Ee & Eb & P); auto; [congruence|].
    exists x. split; [apply listing_entries; auto|]. split; [symmetry; apply count_entries|]. split; auto.
    intros f Hf. rewrite Ee in *. rewrite (walk_spec (trun os) [] s v R x (tend (trun os)) Hw P (tend_at_end _) f).
    + unfold tagged. f_equal. rewrite <- (map_id ((s, v) :: R)) at 2. apply map_ext. intros []; reflexivity.
    + cbn in Hf. lia.
Qed.
(** in general the walk lists everything but the empty key *)
Theorem C22_without_empty_key (os : list (top V)) m : after_calls os m ->
  exists l first, listing (c_del m []) l /\ tbegin (trun os) = Ok first /\
    forall fuel, (length l + 2 <= fuel)%nat -> walk fuel first (tend (trun os)) = Ok l.
Proof.
  intros H. pose proof (calls_show _ _ H) as S. pose proof S as [Hw Hm].
  exists (centries [] (nch (trun os))).
  destruct (nch (trun os)) as [|x0 cs0] eqn:En.
  - exists (tend (trun os)). rewrite <- En. split; [apply centries_nonroot; auto|].
    split; [unfold tbegin; rewrite En; auto|]. rewrite En. cbn [centries flat_map].
    intros [|f] Hf; [cbn in Hf; lia|]. cbn [walk]. rewrite (at_end_eqb (trun os) []) by apply tend_at_end. reflexivity.
  - rewrite <- En. destruct (tbegin_gen (trun os) Hw) as (s & v & R & x & Ee & Eb & P); [congruence|].
    exists x. split; [apply centries_nonroot; auto|]. split; auto.
    intros f Hf. rewrite Ee in *. rewrite (walk_spec (trun os) [] s v R x (tend (trun os)) Hw P (tend_at_end _) f).
    + unfold tagged. f_equal. rewrite <- (map_id ((s, v) :: R)) at 2. apply map_ext. intros []; reflexivity.
    + cbn in Hf. lia.
Qed.
(** ++ on the iterator of one entry gives the iterator of the next *)
Theorem C22_next (os : list (top V)) m l A k1 v1 k2 v2 B : after_calls os m -> listing m l ->
  l = A ++ (k1, v1) :: (k2, v2) :: B ->
  exists x1 x2, find (trun os) k1 = Ok x1 /\ find (trun os) k2 = Ok x2 /\ iter_inc x1 = Ok x2.
Proof.
  intros H L ->. pose proof (calls_show _ _ H) as S. pose proof S as [Hw Hm].
  pose proof (listing_unique _ _ _ S L) as E. destruct L as [_ L].
  destruct (find_pos _ _ k1 v1 S) as (R1 & x1 & E1 & P1); [apply L; apply in_or_app; right; left; auto|].
  destruct (find_pos _ _ k2 v2 S) as (R2 & x2 & E2 & P2); [apply L; apply in_or_app; right; right; left; auto|].
  exists x1, x2. split; auto. split; auto.
  destruct (pos_total _ _ _ _ _ _ Hw P1) as (B1 & F1 & _).
  destruct (inc_spec _ _ _ _ _ _ Hw P1) as (x' & Ex & X').
  assert (R1 = (k2, v2) :: B).
  { symmetry. eapply (split_unique A B1); [|rewrite E; exact F1]. rewrite E. apply entries_sorted; auto. }
  subst R1. rewrite Ex. f_equal. eapply pos_unique; eauto.
Qed.
End C22.
(** begin() skips the value stored under the empty key. *)
Theorem C22_refuted :
  ~ (forall (os : list (top nat)) m, after_calls os m ->
       exists l first, listing m l /\ length l = count_values (trun os) /\ tbegin (trun os) = Ok first /\
         forall fuel, (length l + 2 <= fuel)%nat -> walk fuel first (tend (trun os)) = Ok l).
Proof.
  intros H. destruct (H [Insert [] 7%nat] (c_set c_empty [] 7%nat)) as (l & x & L & El & Eb & W).
  - apply (AC_insert [] c_empty); [|reflexivity]. constructor. reflexivity.
  - replace (count_values (trun [Insert [] 7%nat])) with 1%nat in El by reflexivity.
    vm_compute in Eb. injection Eb as <-. specialize (W 5%nat). rewrite El in W.
    specialize (W ltac:(lia)). vm_compute in W. injection W as <-. discriminate.
Qed.

(** * C23 *)
Section C23.
Context {V : Type}.
(** -- on the iterator of one entry gives the iterator of the entry before it;
    partial: when no stored key extends the key of the iterator *)
Theorem C23_back_partial (os : list (top V)) m l A k1 v1 k2 v2 B : after_calls os m -> listing m l ->
  l = A ++ (k1, v1) :: (k2, v2) :: B ->
  (forall c s, m (k2 ++ c :: s) = None) ->
  exists x1 x2, find (trun os) k1 = Ok x1 /\ find (trun os) k2 = Ok x2 /\ iter_dec x2 = Ok x1.
Proof.
  intros H L -> Hext. pose proof (calls_show _ _ H) as S. pose proof S as [Hw Hm].
  pose proof (listing_unique _ _ _ S L) as E. destruct L as [_ L].
  destruct (find_pos _ _ k1 v1 S) as (R1 & x1 & E1 & P1); [apply L; apply in_or_app; right; left; auto|].
  destruct (find_pos _ _ k2 v2 S) as (R2 & x2 & E2 & P2); [apply L; apply in_or_app; right; right; left; auto|].
  exists x1, x2. split; auto. split; auto.
  destruct (pos_total _ _ _ _ _ _ Hw P2) as (B1 & F1 & _).
  assert (R2 = B).
  { symmetry. assert (E' : (A ++ [(k1, v1)]) ++ (k2, v2) :: B = entries [] (trun os)) by (rewrite <- app_assoc; exact E).
    eapply (split_unique (A ++ [(k1, v1)]) B1); [|rewrite E'; exact F1]. rewrite E'. apply entries_sorted; auto. }
  subst R2.
  destruct (dec_spec_leaf (trun os) [] k2 v2 B x2 A k1 v1 Hw P2) as (x' & Ex & X').
  - intros n rest Es. destruct P2 as (n' & rest' & Hc & Hv & -> & _). cbn in Es. injection Es as <- <-.
    pose proof (canon_find _ _ _ _ _ Hw Hc) as Hf. pose proof (find_prefix_wf _ _ _ Hw Hf) as Hn.
    destruct (nch n') as [|[c sub] cs] eqn:En; auto. exfalso.
    destruct (wf_child n' O c sub Hn) as [Hws Has]; [rewrite En; auto|].
    destruct (alive_has_key sub Hws Has) as (r & w & Hr). specialize (Hext c r).
    rewrite <- Hm, (lookup_app _ _ _ _ Hf), lookup_cons, En in Hext. cbn in Hext. rewrite Z.eqb_refl in Hext. congruence.
  - auto.
  - rewrite Ex. f_equal. eapply pos_unique; eauto.
Qed.
(** -- on end() gives the last entry; partial: when the empty key is not stored *)
Theorem C23_back_from_end_partial (os : list (top V)) m l A k v : after_calls os m -> listing m l ->
  l = A ++ [(k, v)] -> m [] = None ->
  exists x, find (trun os) k = Ok x /\ iter_dec (tend (trun os)) = Ok x.
Proof.
  intros H L -> H0. pose proof (calls_show _ _ H) as S. pose proof S as [Hw Hm].
  pose proof (listing_unique _ _ _ S L) as E. destruct L as [_ L].
  destruct (find_pos _ _ k v S) as (R & x & Ex & P); [apply L; apply in_or_app; right; left; auto|].
  exists x. split; auto.
  destruct (dec_spec_end (trun os) [] (tend (trun os)) A k v Hw (tend_at_end _)) as (x' & E' & P'); auto.
  - rewrite <- lookup_nil, Hm; auto.
  - rewrite E'. f_equal. eapply pos_unique; eauto.
Qed.
(** For a trie in which no stored key is a proper prefix of another, and which
    does not store the empty key, the backward walk is the forward walk reversed. *)
Theorem C23_walk_back_partial (os : list (top V)) m l : after_calls os m -> listing m l ->
  m [] = None -> (forall k c s, m k <> None -> m (k ++ c :: s) = None) ->
  exists first, tbegin (trun os) = Ok first /\
    forall fuel, (length l + 1 <= fuel)%nat -> walk_back fuel (tend (trun os)) first = Ok (rev l).
Proof.
  intros H L H0 Hpf. pose proof (calls_show _ _ H) as S. pose proof S as [Hw Hm].
  pose proof (listing_unique _ _ _ S L) as E.
  assert (Hv : nval (trun os) = None) by (rewrite <- lookup_nil, Hm; auto).
  destruct (nch (trun os)) as [|x0 cs0] eqn:En.
  - exists (tend (trun os)). unfold tbegin. rewrite En. split; auto.
    rewrite E, entries_eq. unfold own. rewrite Hv, En. cbn [app centries flat_map rev].
    intros [|f] Hf; [cbn in Hf; lia|]. cbn [walk_back]. rewrite (at_end_eqb (trun os) []) by apply tend_at_end. reflexivity.
  - destruct (tbegin_spec (trun os) Hw) as (s & v & R & first & Ee & Eb & P0); auto; [congruence|].
    exists first. split; auto. rewrite <- E in Ee.
    (* from the entry at the end of a prefix of the list *)
    assert (G : forall X k w Y x, l = X ++ (k, w) :: Y -> pos (trun os) [] k w Y x ->
              forall f, (length X + 1 <= f)%nat -> walk_back f x first = Ok (rev X)).
    { induction X as [|[k1 w1] X IH] using rev_ind; intros k w Y x El P f Hf.
      - cbn in El. rewrite El in Ee. injection Ee as -> -> <-.
        destruct (pos_unique _ _ _ _ _ _ _ _ _ Hw P P0) as (_ & _ & ->).
        destruct f as [|f]; [cbn in Hf; lia|]. cbn [walk_back rev].
        destruct P as (n & rest & _ & _ & -> & _). unfold iter_eqb. cbn [ity stk buf].
        rewrite key_eqb_refl, Nat.eqb_refl. reflexivity.
      - rewrite app_length in Hf. cbn in Hf. destruct f as [|f]; [lia|].
        rewrite rev_app_distr. cbn [rev app walk_back].
        rewrite <- app_assoc in El. cbn [app] in El.
        assert (Ef : iter_eqb x first = Ok false).
        { destruct P as (n & rest & _ & _ & -> & _). destruct P0 as (n0 & rest0 & _ & _ & -> & _).
          unfold iter_eqb. cbn [ity stk buf app]. assert (key_eqb k s = false) as ->; auto.
          apply key_eqb_neq. intros ->. rewrite Ee in El. destruct L as [Ls _]. rewrite Ee in Ls.
          cbn in Ls. inversion Ls as [|? ? _ Hs]; subst. rewrite Forall_forall in Hs. apply (klt_irrefl s). apply Hs.
          destruct X as [|a X]; cbn in El.
          - injection El as _ _ El. rewrite El. left; auto.
          - injection El as _ El. rewrite El, map_app. apply in_or_app. right. right. left; auto. }
        rewrite Ef. cbn [bind].
        destruct (dec_spec_leaf (trun os) [] k w Y x X k1 w1 Hw P) as (x' & Ex & X').
        + intros n rest Es. destruct P as (n' & rest' & Hc & Hnv & -> & _). cbn in Es. injection Es as <- <-.
          pose proof (canon_find _ _ _ _ _ Hw Hc) as Hf'. pose proof (find_prefix_wf _ _ _ Hw Hf') as Hn.
          destruct (nch n') as [|[c sub] cs] eqn:En'; auto. exfalso.
          destruct (wf_child n' O c sub Hn) as [Hws Has]; [rewrite En'; auto|].
          destruct (alive_has_key sub Hws Has) as (r & u & Hr).
          assert (Hk : m k <> None) by (rewrite <- Hm; unfold lookup; rewrite Hf', Hnv; discriminate).
          specialize (Hpf k c r Hk).
          rewrite <- Hm, (lookup_app _ _ _ _ Hf'), lookup_cons, En' in Hpf. cbn in Hpf. rewrite Z.eqb_refl in Hpf. congruence.
        + rewrite <- E. auto.
        + rewrite Ex. cbn [bind]. rewrite (pos_deref _ _ _ _ _ _ X'). cbn [bind app].
          rewrite (IH k1 w1 ((k, w) :: Y) x' El X' f) by lia. reflexivity. }
    intros f Hf. assert (Hl : l <> []) by (rewrite Ee; discriminate).
    destruct (exists_last Hl) as (X & [k w] & El). rewrite El in *. rewrite app_length in Hf. cbn in Hf.
    destruct f as [|f]; [lia|]. cbn [walk_back].
    assert (Ef : iter_eqb (tend (trun os)) first = Ok false).
    { destruct P0 as (n0 & rest0 & _ & _ & -> & _). reflexivity. }
    rewrite Ef. cbn [bind].
    destruct (dec_spec_end (trun os) [] (tend (trun os)) X k w Hw (tend_at_end _) Hv) as (x' & Ex & X'); [congruence|].
    rewrite Ex. cbn [bind]. rewrite (pos_deref _ _ _ _ _ _ X'). cbn [bind app].
    rewrite rev_app_distr. cbn [rev app]. rewrite (G X k w [] x' eq_refl X' f) by lia. reflexivity.
Qed.
End C23.
(** With "x", "xa", "xb" and "xbc" stored, -- from "xb" skips "xa"; with "xa",
    "xb" and "xbc" stored it is undefined. *)
Theorem C23_refuted :
  (exists (os : list (top nat)) m l A B x1 x2 x3, after_calls os m /\ listing m l /\
     l = A ++ ([120; 97], 2%nat) :: ([120; 98], 3%nat) :: B /\
     find (trun os) [120; 97] = Ok x1 /\ find (trun os) [120; 98] = Ok x2 /\
     iter_dec x2 = Ok x3 /\ iter_deref x3 = Ok ([120], 1%nat)) /\
  (exists (os : list (top nat)) m l B x2, after_calls os m /\ listing m l /\
     l = ([120; 97], 2%nat) :: ([120; 98], 3%nat) :: B /\
     find (trun os) [120; 98] = Ok x2 /\ iter_dec x2 = Undef).
Proof.
  split.
  - destruct (C19_total [Insert [120] 1%nat; Insert [120; 97] 2%nat; Insert [120; 98] 3%nat; Insert [120; 98; 99] 4%nat]) as [m H].
    eexists _, m, _, [([120], 1%nat)], [([120; 98; 99], 4%nat)], _, _, _.
    split; [exact H|]. split; [apply listing_entries; apply calls_show; exact H|]. vm_compute. repeat split.
  - destruct (C19_total [Insert [120; 97] 2%nat; Insert [120; 98] 3%nat; Insert [120; 98; 99] 4%nat]) as [m H].
    eexists _, m, _, [([120; 98; 99], 4%nat)], _.
    split; [exact H|]. split; [apply listing_entries; apply calls_show; exact H|]. vm_compute. repeat split.
Qed.

(** * C63: equality and node traversal *)
Section C63.
Context {V : Type}.
Variable veqb : V -> V -> bool.
Hypothesis veqb_ok : forall a b, veqb a b = true <-> a = b.
Theorem C63_equal (os1 os2 : list (top V)) m1 m2 : after_calls os1 m1 -> after_calls os2 m2 ->
  equal_nodes veqb (trun os1) (trun os2) = true <-> forall k, m1 k = m2 k.
Proof using veqb_ok.
  intros H1 H2. pose proof (calls_show _ _ H1) as [W1 L1]. pose proof (calls_show _ _ H2) as [W2 L2].
  rewrite (equal_nodes_eq _ _ _ veqb_ok). split.
  - intros E k. rewrite <- L1, <- L2, E. reflexivity.
  - intros E. apply wf_ext; auto. intros k. rewrite L1, L2. auto.
Qed.
(** walking down from root_node() by child(): the node is valid iff some
    stored key starts with the units followed (or none were followed), and it
    has a value iff that key is stored *)
Theorem C63_nodes (os : list (top V)) m p : after_calls os m ->
  let n := fold_left node_child p (root_node (trun os)) in
  (node_valid n = true <-> p = [] \/ exists s, m (p ++ s) <> None) /\
  (node_has_value n = true <-> m p <> None) /\
  (node_has_child n = true <-> exists c s, m (p ++ c :: s) <> None) /\
  (forall v, m p = Some v -> node_value n = Ok v).
Proof using Type.
  intros H n. pose proof (calls_show _ _ H) as [Hw Hm].
  assert (En : n = find_prefix_node (trun os) p).
  { unfold n, root_node. generalize (trun os). clear. induction p as [|c p IH]; intros t; auto. cbn.
    destruct (find_child c (nch t)) as [[i s]|]; [apply IH|]. clear. induction p; auto. }
  rewrite En. clear n En. destruct (find_prefix_node (trun os) p) as [n|] eqn:E; cbn [node_valid node_has_value node_has_child node_value].
  - pose proof (find_prefix_wf _ _ _ Hw E) as Hn.
    assert (Hp : forall s, m (p ++ s) = lookup n s) by (intros s; rewrite <- Hm; apply lookup_app; auto).
    assert (Hp0 : m p = nval n) by (rewrite <- (app_nil_r p), Hp; reflexivity).
    repeat split.
    + intros _. destruct p as [|c p]; auto. right. pose proof (find_prefix_alive _ _ _ _ Hw E) as Ha.
      destruct (alive_has_key n Hn Ha) as (s & v & Hs). exists s. rewrite Hp. congruence.
    + intros Hv. rewrite Hp0. unfold has_value in Hv. destruct (nval n); congruence.
    + intros Hv. rewrite Hp0 in Hv. unfold has_value. destruct (nval n); congruence.
    + unfold is_leaf. destruct (nch n) as [|[c sub] cs] eqn:Ec; [discriminate|]. intros _.
      destruct (wf_child n O c sub Hn) as [Hws Has]; [rewrite Ec; auto|].
      destruct (alive_has_key sub Hws Has) as (s & v & Hs). exists c, s. rewrite Hp, lookup_cons, Ec. cbn. rewrite Z.eqb_refl. congruence.
    + intros (c & s & Hs). rewrite Hp, lookup_cons in Hs. unfold is_leaf. destruct (nch n); auto.
    + intros v Hv. rewrite <- Hp0, Hv. reflexivity.
  - assert (Hp : forall s, m (p ++ s) = None).
    { intros s. rewrite <- Hm. unfold lookup. assert (find_prefix_node (trun os) (p ++ s) = None) as ->; auto.
      clear -E. revert E. generalize (trun os). induction p as [|c p IH]; cbn; [discriminate|].
      intros t. destruct (find_child c (nch t)) as [[]|]; auto. }
    assert (Hp0 : m p = None) by (rewrite <- (app_nil_r p); auto).
    repeat split; try discriminate; try congruence.
    + intros [->|[s Hs]]; [discriminate|]. rewrite Hp in Hs. congruence.
    + intros (c & s & Hs). rewrite Hp in Hs. congruence.
Qed.
End C63.

(** * C64: a moved-from trie *)
Section C64.
Context {V : Type}.
(** the moved-to trie has the content, the moved-from one is empty and can be
    filled again; partial: when the empty key was not stored *)
Theorem C64_moved_partial (os : list (top V)) m junk : after_calls os m -> m [] = None ->
  fst (move_trie junk (trun os)) = trun os /\
  snd (move_trie junk (trun os)) = trun [] /\ is_empty (snd (move_trie junk (trun os))) = true.
Proof.
  intros H H0. pose proof (calls_show _ _ H) as [Hw Hm].
  assert (Hv : nval (trun os) = None) by (rewrite <- lookup_nil, Hm; auto).
  unfold move_trie. rewrite Hv. auto.
Qed.
End C64.
(** A trie with the empty key is not empty after its content was moved out. *)
Theorem C64_refuted : exists (os : list (top nat)) m, after_calls os m /\
  forall junk, is_empty (snd (move_trie junk (trun os))) = false /\
    exists x, find (snd (move_trie junk (trun os))) [] = Ok x /\ iter_deref x = Ok ([], junk).
Proof.
  exists [Insert [] 7%nat], (c_set c_empty [] 7%nat). split.
  - apply (AC_insert [] c_empty); [|reflexivity]. constructor. reflexivity.
  - intros junk. split; [reflexivity|]. eexists. split; reflexivity.
Qed.

(** * The hypotheses are met by concrete cases *)
Definition ex_ops : list (top nat) :=
  [Insert [98; 97] 1%nat; Insert [97] 2%nat; Insert [97; 98; 99] 3%nat; Insert [120] 4%nat; Erase [120];
   Insert [98; 97] 5%nat].
Example ex_content : exists m, after_calls ex_ops m /\ m [98; 97] = Some 5%nat /\ m [97] = Some 2%nat /\
  m [120] = None /\ m [] = None /\ m [97; 98; 99] = Some 3%nat.
Proof.
  destruct (C19_total ex_ops) as [m H]. exists m. split; auto. pose proof (calls_show _ _ H) as [_ E].
  rewrite <- !E. repeat split; reflexivity.
Qed.
(** a missing key that overreaches nothing *)
Example ex_overreach : exists m, after_calls ex_ops m /\ m [97; 98] = None /\ (forall q, ~ overreaches m [97; 98] q).
Proof.
  destruct (C19_total ex_ops) as [m H]. exists m. split; auto. pose proof (calls_show _ _ H) as S. pose proof S as [_ E].
  split; [rewrite <- E; reflexivity|].
  intros q Hq. apply (overreaches_iff _ _ _ _ S) in Hq as [Hq _]. apply overrun_missing in Hq. vm_compute in Hq. discriminate.
Qed.
(** and one that does *)
Example ex_overreach2 : exists m, after_calls [Insert [97] 1%nat; Insert [97; 98] 2%nat] m /\
  overreaches m [97; 98; 99] [97] /\ m [97] = Some 1%nat.
Proof.
  destruct (C19_total [Insert [97] 1%nat; Insert [97; 98] 2%nat]) as [m H]. exists m. split; auto.
  pose proof (calls_show _ _ H) as [_ E]. split; [|rewrite <- E; reflexivity].
  exists 98, 99, []. repeat split.
  - rewrite <- E. discriminate.
  - exists []. rewrite <- E. discriminate.
  - intros s. rewrite <- E. reflexivity.
Qed.
Example ex_prefix : let t := trun ex_ops in
  exists x, rbegin (prefix_search t [97]) = Ok x /\
    walk 9 x (rend (prefix_search t [97])) = Ok [([97], 2%nat); ([97; 98; 99], 3%nat)].
Proof. eexists. split; reflexivity. Qed.
Example ex_walk : exists x, tbegin (trun ex_ops) = Ok x /\
  walk 9 x (tend (trun ex_ops)) = Ok [([97], 2%nat); ([97; 98; 99], 3%nat); ([98; 97], 5%nat)].
Proof. eexists. split; reflexivity. Qed.
(** a trie without a key that is a proper prefix of another, walked back *)
Example ex_back : exists m x, after_calls [Insert [98; 97] 1%nat; Insert [98; 99] 2%nat; Insert [97] 3%nat] m /\
  m [] = None /\ (forall k c s, m k <> None -> m (k ++ c :: s) = None) /\
  tbegin (trun [Insert [98; 97] 1%nat; Insert [98; 99] 2%nat; Insert [97] 3%nat]) = Ok x /\
  walk_back 9 (tend (trun [Insert [98; 97] 1%nat; Insert [98; 99] 2%nat; Insert [97] 3%nat])) x =
    Ok [([98; 99], 2%nat); ([98; 97], 1%nat); ([97], 3%nat)].
Proof.
  destruct (C19_total [Insert [98; 97] 1%nat; Insert [98; 99] 2%nat; Insert [97] 3%nat]) as [m H].
  eexists m, _. split; [exact H|]. pose proof (calls_show _ _ H) as S. pose proof S as [_ E].
  split; [rewrite <- E; reflexivity|]. split; [|split; reflexivity].
  intros k c s Hk. pose proof (listing_entries _ _ S) as [_ L].
  destruct (m k) as [v|] eqn:Ek; [|congruence]. destruct (m (k ++ c :: s)) as [w|] eqn:Ew; auto. exfalso.
  apply L in Ek. apply L in Ew. vm_compute in Ek, Ew.
  repeat (destruct Ek as [Ek|Ek]; [injection Ek as <- <-|]); try destruct Ek;
    repeat (destruct Ew as [Ew|Ew]; [try discriminate Ew|]); try destruct Ew.
Qed.
Example ex_equal : exists m1 m2, after_calls [Insert [1] 1%nat; Insert [1; 2] 2%nat; Erase [1; 2]] m1 /\
  after_calls [Insert [1] 1%nat] m2 /\ (forall k, m1 k = m2 k) /\
  equal_nodes Nat.eqb (trun [Insert [1] 1%nat; Insert [1; 2] 2%nat; Erase [1; 2]]) (trun [Insert [1] 1%nat]) = true.
Proof.
  destruct (C19_total [Insert [1] 1%nat; Insert [1; 2] 2%nat; Erase [1; 2]]) as [m1 H1].
  destruct (C19_total [Insert [1] 1%nat]) as [m2 H2]. exists m1, m2. repeat split; auto.
  apply (C63_equal Nat.eqb Nat.eqb_eq _ _ _ _ H1 H2). reflexivity.
Qed.

(** One query for all the theorems of this file. *)
Definition TrieProps_theorems :=
  (@C19_find, @C19_find_after_insert, @C19_size, @C19_total,
   @C20_find_partial, @C20_erase_partial, @C20_overreach, @C20_content,
   @C20_refuted, @C21_prefix_search_partial, @C21_refuted, @C22_iteration_partial,
   @C22_without_empty_key, @C22_next, @C22_refuted, @C23_back_partial,
   @C23_back_from_end_partial, @C23_walk_back_partial, @C23_refuted, @C63_equal,
   @C63_nodes, @C64_moved_partial, @C64_refuted).
Print Assumptions TrieProps_theorems.
