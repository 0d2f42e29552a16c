(** Theorems about trie_map, part 3: writing through iterators, and const_iterator. *)
From Coq Require Import List ZArith Lia Bool Arith Sorted.
From Verif Require Import Base TrieModel TrieSpec TrieProofs TrieProofs2 TrieProofs3 TrieProps TrieWrite.
Import ListNotations.
Open Scope Z_scope.

Section C88.
Context {V : Type}.
Local Notation tnode := (tnode V).

Lemma skipn_set_nth {A} (l : list A) j x : skipn (S j) (set_nth j x l) = skipn (S j) l.
Proof. revert j; induction l as [|y l IH]; intros [|j]; try reflexivity. exact (IH j). Qed.
Lemma nth_set_nth {A} (l : list A) j x y : nth_error l j = Some y -> nth_error (set_nth j x l) j = Some x.
Proof. revert j; induction l as [|z l IH]; intros [|j]; try discriminate; [reflexivity|exact (IH j)]. Qed.

(** The stack of an iterator stays one of the changed tree, with the same entries after it *)
Lemma restack_canon (m : tnode) st s : canon m st s -> forall n i rest, st = (n, i) :: rest -> forall n', exists rest',
  restack n' i rest = (n', i) :: rest' /\ canon (rebuild n' rest) ((n', i) :: rest') s /\ after rest' s = after rest s.
Proof.
  intros H; induction H as [i0|n0 i0 p j rest0 s c H IH Hn]; intros n i rest E n'; injection E as -> -> <-.
  - exists []. split; [reflexivity|]. split; [constructor|reflexivity].
  - cbn [restack rebuild]. rewrite Hn.
    destruct (IH _ _ _ eq_refl (TN (nval p) (set_nth j (c, n') (nch p)))) as (r & Er & Hr & Ea).
    rewrite Er. eexists. split; [reflexivity|]. split.
    + econstructor; [exact Hr|]. cbn [nch]. eapply nth_set_nth; eauto.
    + rewrite !after_cons, Ea. cbn [nch]. now rewrite skipn_set_nth.
Qed.

Lemma write_pos (m : tnode) s v R x w : wf m -> pos m [] s v R x ->
  exists x', iter_write x w = Ok (insert s w m, x') /\ pos (insert s w m) [] s w R x'.
Proof.
  intros Hw (n & rest & Hc & Hv & -> & ->). unfold iter_write. cbn [ity stk cval buf ckey].
  assert (Hn : wf n) by (apply (canon_wf _ _ _ Hw) in Hc; inversion Hc; auto).
  destruct (restack_canon m _ s Hc n O rest eq_refl (TN (Some w) (nch n))) as (rest' & Er & Hc' & Ea).
  destruct (rebuild_spec m _ s Hw Hc n O rest (TN (Some w) (nch n)) eq_refl) as [W [L1 L2]].
  { destruct n; apply wf_inv in Hn as []; constructor; auto. }
  { right. left. discriminate. }
  assert (E : rebuild (TN (Some w) (nch n)) rest = insert s w m).
  { apply wf_ext; [exact W|apply insert_wf; exact Hw|]. intros k. unfold insert. rewrite insert_lookup by exact Hw.
    pose proof (canon_find _ _ _ _ _ Hw Hc) as Hf.
    destruct (split_key s k) as [[r ->]|Hk].
    - rewrite L1. destruct r as [|c r].
      + rewrite app_nil_r, key_eqb_refl. reflexivity.
      + assert (key_eqb s (s ++ c :: r) = false) as ->.
        { apply key_eqb_neq. intros E. apply (f_equal (@length Z)) in E. rewrite app_length in E. cbn in E. lia. }
        rewrite (lookup_app _ _ _ _ Hf), !lookup_cons. reflexivity.
    - rewrite L2 by auto. assert (key_eqb s k = false) as ->; auto.
      apply key_eqb_neq. intros <-. apply (Hk []). rewrite app_nil_r; auto. }
  rewrite E in *. eexists. split; [reflexivity|]. rewrite Er.
  exists (TN (Some w) (nch n)), rest'. split; [exact Hc'|]. split; [reflexivity|]. split; [reflexivity|].
  cbn [nch]. now rewrite Ea.
Qed.

(** Writing through the iterator of a stored key does what insert of that key does, and the iterator
    stays the one that find gives *)
Theorem C88_write (os : list (top V)) m k v w : after_calls os m -> m k = Some v ->
  exists x x', find (trun os) k = Ok x /\ iter_write x w = Ok (trun (os ++ [Insert k w]), x') /\
    find (trun (os ++ [Insert k w])) k = Ok x' /\ iter_deref x' = Ok (k, w).
Proof.
  intros H Hk. pose proof (calls_show _ _ H) as Sh. pose proof Sh as [Hw Hm].
  destruct (find_pos _ _ _ _ Sh Hk) as (R & x & Ef & P). destruct (write_pos _ _ _ _ _ w Hw P) as (x' & Ew & P').
  assert (H' : after_calls (os ++ [Insert k w]) (c_set m k w)) by (eapply AC_insert; eauto).
  pose proof (calls_show _ _ H') as Sh'. pose proof Sh' as [Hw' _].
  destruct (find_pos _ (c_set m k w) k w Sh') as (R2 & x2 & Ef2 & P2).
  { rewrite c_set_eqb, key_eqb_refl. reflexivity. }
  rewrite trun_snoc in *. cbn [tstep] in *. destruct (pos_unique _ _ _ _ _ _ _ _ _ Hw' P' P2) as (_ & _ & ->).
  exists x, x2. repeat split; auto. exact (pos_deref _ _ _ _ _ _ P2).
Qed.

Lemma update_spec (f : list Z -> V -> V) R : forall (m : tnode) s v x fuel, wf m -> pos m [] s v R x -> (length R + 2 <= fuel)%nat ->
  update fuel f m x = Ok (fold_left (fun t e => insert (fst e) (f (fst e) (snd e)) t) ((s, v) :: R) m).
Proof.
  induction R as [|[s' v'] R IH]; intros m s v x fuel Hw P Hf.
  - destruct fuel as [|[|fuel]]; cbn in Hf; try lia. cbn [update].
    rewrite (pos_not_end _ _ _ _ _ _ _ P (tend_at_end m)). cbn [bind]. rewrite (pos_deref _ _ _ _ _ _ P). cbn [bind fst snd app].
    destruct (write_pos _ _ _ _ _ (f s v) Hw P) as (x' & -> & P'). cbn [bind fst snd].
    assert (Hw' : wf (insert s (f s v) m)) by (apply insert_wf; exact Hw).
    destruct (inc_spec _ _ _ _ _ _ Hw' P') as (y & -> & Y). cbn [bind].
    rewrite (at_end_eqb _ _ _ _ Y (tend_at_end _)). reflexivity.
  - destruct fuel as [|fuel]; cbn in Hf; try lia. cbn [update].
    rewrite (pos_not_end _ _ _ _ _ _ _ P (tend_at_end m)). cbn [bind]. rewrite (pos_deref _ _ _ _ _ _ P). cbn [bind fst snd app].
    destruct (write_pos _ _ _ _ _ (f s v) Hw P) as (x' & -> & P'). cbn [bind fst snd].
    assert (Hw' : wf (insert s (f s v) m)) by (apply insert_wf; exact Hw).
    destruct (inc_spec _ _ _ _ _ _ Hw' P') as (y & -> & Y). cbn [bind].
    rewrite (IH _ s' v' y fuel Hw' Y) by lia. reflexivity.
Qed.

Lemma inserts_run (f : list Z -> V -> V) l : forall os, fold_left (fun t e => insert (fst e) (f (fst e) (snd e)) t) l (trun os) =
  trun (os ++ map (fun e => Insert (fst e) (f (fst e) (snd e))) l).
Proof.
  induction l as [|[k v] l IH]; intros os; cbn [fold_left map fst snd]; [now rewrite app_nil_r|].
  change (insert k (f k v) (trun os)) with (tstep (trun os) (Insert k (f k v))). rewrite <- trun_snoc, IH, <- app_assoc. reflexivity.
Qed.
Lemma inserts_content (f : list Z -> V -> V) l : forall os m, after_calls os m -> NoDup (map fst l) ->
  exists m', after_calls (os ++ map (fun e => Insert (fst e) (f (fst e) (snd e))) l) m' /\
    (forall k v, In (k, v) l -> m' k = Some (f k v)) /\ (forall k, ~ In k (map fst l) -> m' k = m k).
Proof.
  induction l as [|[k v] l IH]; intros os m H Hn; cbn [map fst snd].
  - exists m. rewrite app_nil_r. split; [exact H|]. split; [intros k v []|auto].
  - cbn [map fst] in Hn. inversion Hn as [|? ? N1 N2]; subst.
    destruct (IH (os ++ [Insert k (f k v)]) (c_set m k (f k v))) as (m' & H' & A & B); [eapply AC_insert; eauto|exact N2|].
    rewrite <- app_assoc in H'. exists m'. split; [exact H'|]. split.
    + intros k0 v0 [E|Hi]; [|exact (A k0 v0 Hi)]. injection E as <- <-. rewrite B by exact N1. now rewrite c_set_eqb, key_eqb_refl.
    + intros k0 Hk. rewrite B by (intros Hi; apply Hk; right; exact Hi). rewrite c_set_eqb.
      destruct (key_eqb k k0) eqn:E; [|reflexivity]. apply key_eqb_spec in E. exfalso. apply Hk. left. exact E.
Qed.
Lemma sorted_nodup (l : list (list Z)) : StronglySorted klt l -> NoDup l.
Proof.
  induction 1 as [|a l S IH F]; constructor; auto. intros Hi. rewrite Forall_forall in F. exact (klt_irrefl a (F a Hi)).
Qed.

(** A loop from begin() to end() that replaces every value by a function of key and value changes
    all entries that way, adds and removes none, and leaves the value of the empty key alone *)
Theorem C88_update_all (os : list (top V)) m (f : list Z -> V -> V) : after_calls os m ->
  exists os' m', after_calls os' m' /\ (forall k, m' k = match k with [] => m [] | _ => option_map (f k) (m k) end) /\
    forall fuel, (count_values (trun os) + 2 <= fuel)%nat -> update_all fuel f (trun os) = Ok (trun os').
Proof.
  intros H. pose proof (calls_show _ _ H) as Sh. pose proof Sh as [Hw Hm].
  set (l := centries [] (nch (trun os))). destruct (centries_nonroot _ _ Sh) as [Ls Ll]. fold l in Ls, Ll.
  destruct (inserts_content f l os m H (sorted_nodup _ Ls)) as (m' & H' & A & B).
  eexists. exists m'. split; [exact H'|]. split.
  - intros [|c k].
    + apply B. intros Hi. apply in_map_iff in Hi as ([k0 v0] & E & Hi). cbn in E. subst k0. apply Ll in Hi. rewrite c_del_eqb in Hi. discriminate.
    + assert (Hl : forall v, In (c :: k, v) l <-> m (c :: k) = Some v) by (intros v; rewrite Ll, c_del_eqb; reflexivity).
      destruct (m (c :: k)) as [v|] eqn:E; cbn [option_map].
      * apply A. apply Hl. reflexivity.
      * rewrite B; [exact E|]. intros Hi. apply in_map_iff in Hi as ([k0 v0] & E0 & Hi). cbn in E0. subst k0. apply Hl in Hi. discriminate.
  - intros fuel Hf. unfold update_all. rewrite (count_entries []), entries_eq, app_length in Hf. fold l in Hf.
    destruct (nch (trun os)) as [|x0 cs0] eqn:En.
    + unfold tbegin. rewrite En. cbn [bind]. destruct fuel as [|fuel]; [lia|]. cbn [update].
      rewrite (at_end_eqb (trun os) []) by apply tend_at_end. cbn [bind]. subst l. cbn [centries flat_map map]. now rewrite app_nil_r.
    + destruct (tbegin_gen (trun os) Hw) as (s & v & R & x & Ee & Eb & P); [congruence|].
      rewrite En in Ee. fold l in Ee. rewrite Eb. cbn [bind]. rewrite (update_spec f R _ s v x fuel Hw P); [|rewrite Ee in Hf; cbn [length] in Hf; lia].
      rewrite <- Ee. f_equal. apply inserts_run.
Qed.

(** A const_iterator made from an iterator shows the same entry, moves like it and compares equal to
    whatever it compares equal to *)
Theorem C88_const (x y : iter V) : iter_deref (const_of x) = iter_deref x /\
  iter_inc (const_of x) = iter_inc x /\ iter_dec (const_of x) = iter_dec x /\
  iter_const_eqb x y = iter_eqb x y /\ const_iter_eqb x y = iter_eqb x y.
Proof.
  assert (C : forall z : iter V, const_of z = z).
  { intros [st b ck cv ty]. unfold const_of. cbn [stk buf ckey cval ity]. f_equal.
    rewrite <- (map_id st) at 2. apply map_ext. intros []; reflexivity. }
  unfold iter_const_eqb, const_iter_eqb. rewrite !C. auto.
Qed.

(** it++ and it-- hand back the iterator as it was and move it like ++it and --it *)
Theorem C88_post (os : list (top V)) m l A k1 v1 k2 v2 B : after_calls os m -> listing m l ->
  l = A ++ (k1, v1) :: (k2, v2) :: B ->
  exists x1 x2, find (trun os) k1 = Ok x1 /\ find (trun os) k2 = Ok x2 /\ iter_post_inc x1 = Ok (x2, x1) /\
    (forall x, iter_dec x2 = Ok x -> iter_post_dec x2 = Ok (x, x2)).
Proof.
  intros H L E. destruct (C22_next os m l A k1 v1 k2 v2 B H L E) as (x1 & x2 & F1 & F2 & I). exists x1, x2.
  split; [exact F1|]. split; [exact F2|]. unfold iter_post_inc, iter_post_dec. rewrite I. split; [reflexivity|]. intros x ->. reflexivity.
Qed.

(** A default-constructed iterator differs from every end(), but comparing it with another
    default-constructed one, or with the iterator of an entry, is undefined *)
Theorem C88_default (os : list (top V)) m k v : after_calls os m -> m k = Some v ->
  iter_eqb default_iter (tend (trun os)) = Ok false /\
  exists x, find (trun os) k = Ok x /\ iter_eqb default_iter x = Undef.
Proof.
  intros H Hk. split; [reflexivity|]. destruct (find_pos _ _ _ _ (calls_show _ _ H) Hk) as (R & x & Ef & P). exists x. split; [exact Ef|].
  destruct P as (n & rest & _ & _ & -> & _). reflexivity.
Qed.
End C88.
Theorem C88_default_refuted : iter_eqb (@default_iter nat) default_iter = Undef.
Proof. reflexivity. Qed.

(** The hypotheses hold: "", "a", "ab" and "b" stored, every value doubled *)
Definition ex_w : list (top nat) := [Insert [97] 1%nat; Insert [97; 98] 2%nat; Insert [98] 3%nat; Insert [] 7%nat].
Example C88_write_ex : exists m, after_calls ex_w m /\ m [97; 98] = Some 2%nat.
Proof. destruct (C19_total ex_w) as [m H]. exists m. split; [exact H|]. destruct (calls_show _ _ H) as [_ Hm]. rewrite <- Hm. reflexivity. Qed.
Example C88_update_ex : update_all 6 (fun _ v => v + v)%nat (trun ex_w) =
  Ok (trun [Insert [97] 2%nat; Insert [97; 98] 4%nat; Insert [98] 6%nat; Insert [] 7%nat]).
Proof. vm_compute. reflexivity. Qed.
Example C88_post_ex : exists m l A B, after_calls ex_w m /\ listing m l /\ l = A ++ ([97], 1%nat) :: ([97; 98], 2%nat) :: B.
Proof.
  destruct (C19_total ex_w) as [m H]. exists m, (entries [] (trun ex_w)), [([], 7%nat)], [([98], 3%nat)]. split; [exact H|].
  split; [apply listing_entries; apply calls_show; exact H|vm_compute; reflexivity].
Qed.

(** One query for all the theorems of this file. *)
Definition TrieProps3_theorems :=
  (@C88_write, @C88_update_all, @C88_const, @C88_post, @C88_default, @C88_default_refuted).
Print Assumptions TrieProps3_theorems.
