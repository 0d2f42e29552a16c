(** Proofs about the trie model, part 3: iterators. *)
From Coq Require Import List ZArith Lia Bool Arith Sorted.
From Verif Require Import Base TrieModel TrieSpec TrieProofs TrieProofs2.
Import ListNotations.
Open Scope Z_scope.

Section TRIEP.
Context {V : Type}.
Local Notation tnode := (tnode V).
Local Notation iter := (iter V).
Local Notation kids := (list (Z * TrieModel.tnode V)).
Local Notation stack := (list (TrieModel.tnode V * nat)).

(** entries after / before the subtree at the top of a stack; [s] is its path *)
Fixpoint after (rest : stack) (s : list Z) : list (list Z * V) :=
  match rest with
  | [] => []
  | (p, j) :: rest' => centries (removelast s) (skipn (S j) (nch p)) ++ after rest' (removelast s)
  end.
Fixpoint before (rest : stack) (s : list Z) : list (list Z * V) :=
  match rest with
  | [] => []
  | (p, j) :: rest' =>
      before rest' (removelast s) ++ own (removelast s) p ++ centries (removelast s) (firstn j (nch p))
  end.

Lemma after_cons p j rest s c :
  after ((p, j) :: rest) (s ++ [c]) = centries s (skipn (S j) (nch p)) ++ after rest s.
Proof. cbn [after]. rewrite removelast_last. reflexivity. Qed.
Lemma before_cons p j rest s c :
  before ((p, j) :: rest) (s ++ [c]) = before rest s ++ own s p ++ centries s (firstn j (nch p)).
Proof. cbn [before]. rewrite removelast_last. reflexivity. Qed.

Lemma kids_split (cs : kids) j x : nth_error cs j = Some x -> cs = firstn j cs ++ x :: skipn (S j) cs.
Proof.
  revert j; induction cs as [|y cs IH]; intros [|j]; cbn; try discriminate.
  - intros E; injection E as ->. reflexivity.
  - intros E. f_equal. apply IH; auto.
Qed.

Lemma skipn_nth {A} (l : list A) j x : nth_error l j = Some x -> skipn j l = x :: skipn (S j) l.
Proof.
  revert j; induction l as [|y l IH]; intros [|j]; cbn; try discriminate.
  - intros E; injection E as ->. reflexivity.
  - intros E. apply IH; auto.
Qed.
Lemma total (m : tnode) n i rest s : canon m ((n, i) :: rest) s ->
  entries [] m = before rest s ++ entries s n ++ after rest s.
Proof.
  intros H. remember ((n, i) :: rest) as st eqn:E. revert n i rest E.
  induction H as [i|n i p j rest s c H IH Hn]; intros n0 i0 rest0 E; injection E as -> -> <-.
  - cbn. rewrite app_nil_r. reflexivity.
  - rewrite (IH _ _ _ eq_refl), before_cons, after_cons, (entries_eq s p).
    rewrite (kids_split _ _ _ Hn) at 1. rewrite centries_app, centries_cons, <- !app_assoc. reflexivity.
Qed.

(** ** Fuel *)
Lemma node_count_child (n : tnode) j c sub : nth_error (nch n) j = Some (c, sub) ->
  (S (node_count sub) <= node_count n)%nat.
Proof.
  destruct n as [v cs]. cbn [nch node_count]. revert j.
  induction cs as [|[d m] cs IH]; intros [|j]; cbn [nth_error]; try discriminate.
  - intros E; injection E as -> ->. lia.
  - intros E. apply IH in E. lia.
Qed.
Lemma canon_count (m : tnode) st s : canon m st s -> forall n i rest, st = (n, i) :: rest ->
  (length rest + node_count n <= node_count m)%nat.
Proof.
  induction 1 as [i|n i p j rest s c H IH Hn]; intros n0 i0 rest0 E; injection E as -> -> <-; cbn; [lia|].
  specialize (IH _ _ _ eq_refl). apply node_count_child in Hn. lia.
Qed.
Lemma canon_fuel (m : tnode) st s : canon m st s -> stack_fuel st = S (node_count m).
Proof.
  intros H. assert (B : exists l i, st = l ++ [(m, i)]).
  { induction H as [i|n i p j rest s c H IH Hn]; [exists [], i; auto|].
    destruct IH as (l & k & ->). exists ((n, i) :: l), k. auto. }
  destruct B as (l & i & ->). unfold stack_fuel. rewrite rev_app_distr. reflexivity.
Qed.

Lemma rl_app (b s : list Z) c : removelast (b ++ s ++ [c]) = b ++ s.
Proof. rewrite app_assoc. apply removelast_last. Qed.

(** ** Going up *)
Lemma go_up_spec (m : tnode) b0 st s : wf m -> canon m st s -> forall n i rest, st = (n, i) :: rest ->
  match go_up (n, i) rest (b0 ++ s) with
  | inl (st', b) => after rest s = [] /\ b = b0 /\
      (rest = [] /\ st' = [(n, i)] /\ s = [] \/ rest <> [] /\ st' = [(m, length (nch m))])
  | inr (sub, st', b) => exists p j rest' c s', st' = (sub, O) :: (p, j) :: rest' /\
      canon m st' (s' ++ [c]) /\ b = b0 ++ s' ++ [c] /\
      after rest s = entries (s' ++ [c]) sub ++ after ((p, j) :: rest') (s' ++ [c])
  end.
Proof.
  intros Hw. induction 1 as [i|n i p j rest s c H IH Hn]; intros n0 i0 rest0 E; injection E as -> -> <-.
  - cbn. rewrite app_nil_r. auto 6.
  - cbn [go_up]. rewrite rl_app. destruct (nth_error (nch p) (S j)) as [[d sub]|] eqn:Ed.
    + exists p, (S j), rest, d, s. split; auto. split.
      * econstructor; eauto. eapply canon_retop; eauto.
      * rewrite <- app_assoc. split; auto. rewrite !after_cons. rewrite app_assoc. f_equal.
        rewrite (skipn_nth _ _ _ Ed). reflexivity.
    + assert (Hc : canon m ((p, S j) :: rest) s) by (eapply canon_retop; eauto).
      assert (Hj : S j = length (nch p)).
      { apply nth_error_None in Ed. assert (j < length (nch p))%nat by (apply nth_error_Some; congruence). lia. }
      rewrite after_cons. rewrite skipn_all2 by lia. cbn [centries flat_map app].
      assert (G : forall k, canon m ((p, k) :: rest) s ->
        match go_up (p, k) rest (b0 ++ s) with
        | inl (st', b) => after rest s = [] /\ b = b0 /\ (rest = [] /\ st' = [(p, k)] /\ s = [] \/ rest <> [] /\ st' = [(m, length (nch m))])
        | inr (sub, st', b) => exists p0 j0 rest' c0 s', st' = (sub, O) :: (p0, j0) :: rest' /\
           canon m st' (s' ++ [c0]) /\ b = b0 ++ s' ++ [c0] /\
           after rest s = entries (s' ++ [c0]) sub ++ after ((p0, j0) :: rest') (s' ++ [c0])
        end).
      { intros k Hk. specialize (IH _ _ _ eq_refl).
        destruct rest as [|[p1 j1] rest1].
        - cbn in *. destruct IH as (E1 & E2 & _). inversion Hk; subst. rewrite app_nil_r. auto 6.
        - cbn [go_up] in *. destruct (nth_error (nch p1) (S j1)) as [[d sub]|]; auto.
          destruct (go_up (p1, S j1) rest1 (removelast (b0 ++ s))) as [[st' b]|[[sub st'] b]]; auto.
          destruct IH as (E1 & E2 & E3). repeat split; auto. right. split; [discriminate|].
          destruct E3 as [[E3 _]|[_ E3]]; [discriminate|auto]. }
      specialize (G (S j) Hc). destruct (go_up (p, S j) rest (b0 ++ s)) as [[st' b]|[[sub st'] b]]; auto.
      destruct G as (E1 & E2 & E3). repeat split; auto. right. split; [discriminate|].
      destruct E3 as [(-> & -> & ->)|[_ ->]]; auto. inversion Hc; subst. rewrite Hj. reflexivity.
Qed.

(** ** Going down to the first value *)
Definition landed (m : tnode) (b0 : list Z) (R : list (list Z * V)) (n' : tnode) (st' : stack) (b' : list Z) : Prop :=
  exists rest' s' v', st' = (n', O) :: rest' /\ canon m st' s' /\ b' = b0 ++ s' /\ nval n' = Some v' /\
    R = (s', v') :: centries s' (nch n') ++ after rest' s'.

Lemma descend_first_spec (m : tnode) b0 n : wf n -> alive n -> forall rest s,
  canon m ((n, O) :: rest) s ->
  exists n' st' b', descend_first n ((n, O) :: rest) (b0 ++ s) = Ok (st', b') /\
    landed m b0 (entries s n ++ after rest s) n' st' b'.
Proof.
  induction n as [v cs IH] using tnode_ind2; intros Hw Ha rest s Hc.
  destruct v as [x|].
  - cbn. eexists _, _, _. split; [reflexivity|]. exists rest, s, x. repeat split; auto.
  - destruct cs as [|[c sub] cs]; [destruct Ha as [Ha|Ha]; cbn in Ha; congruence|].
    cbn [descend_first]. rewrite <- app_assoc.
    pose proof (wf_inv _ _ Hw) as [_ Hf]. inversion Hf as [|? ? [Hw' Ha'] Hf']; subst.
    inversion IH as [|? ? IH1 _]; subst. cbn [snd] in *.
    destruct (IH1 Hw' Ha' ((TN None ((c, sub) :: cs), O) :: rest) (s ++ [c])) as (n' & st' & b' & E & L).
    { econstructor; [eauto|reflexivity]. }
    exists n', st', b'. split; auto. rewrite after_cons in L. cbn [nch skipn] in L.
    rewrite entries_eq. unfold own; cbn [nval nch app]. rewrite centries_cons, <- app_assoc. exact L.
Qed.

Lemma inc_down (m : tnode) b0 n : wf n -> alive n -> nval n = None -> forall f rest s,
  canon m ((n, O) :: rest) s -> (node_count n <= f)%nat ->
  exists n' st' b', inc_loop f n ((n, O) :: rest) (b0 ++ s) = Ok (inr (n', st', b')) /\
    landed m b0 (entries s n ++ after rest s) n' st' b'.
Proof.
  induction n as [v cs IH] using tnode_ind2; intros Hw Ha Hv f rest s Hc Hf.
  cbn in Hv; subst v. destruct cs as [|[c sub] cs]; [destruct Ha as [Ha|Ha]; cbn in Ha; congruence|].
  pose proof (wf_inv _ _ Hw) as [_ Hfa]. inversion Hfa as [|? ? [Hw' Ha'] _]; subst.
  inversion IH as [|? ? IH1 _]; subst. cbn [snd] in *.
  assert (Hc' : canon m ((sub, O) :: (TN None ((c, sub) :: cs), O) :: rest) (s ++ [c])).
  { econstructor; [eauto|reflexivity]. }
  assert (En : entries s (TN None ((c, sub) :: cs)) ++ after rest s =
               entries (s ++ [c]) sub ++ after ((TN None ((c, sub) :: cs), O) :: rest) (s ++ [c])).
  { rewrite after_cons. cbn [nch skipn]. rewrite entries_eq. unfold own; cbn [nval nch app].
    rewrite centries_cons, <- app_assoc. reflexivity. }
  destruct f as [|f]; [cbn in Hf; lia|]. cbn [inc_loop nch]. rewrite <- app_assoc, En.
  unfold has_value. destruct (nval sub) as [x|] eqn:Ex.
  - eexists _, _, _. split; [reflexivity|]. eexists _, (s ++ [c]), x. repeat split; eauto.
    rewrite (entries_eq (s ++ [c]) sub). unfold own; rewrite Ex. reflexivity.
  - apply IH1; auto. cbn [node_count] in Hf. lia.
Qed.

(** ** Valid iterators *)

(** [x] stands on the entry at path [s] below [m]; [R] is what follows it. *)
Definition pos (m : tnode) (b0 s : list Z) (v : V) (R : list (list Z * V)) (x : iter) : Prop :=
  exists n rest, canon m ((n, O) :: rest) s /\ nval n = Some v /\
    x = IT ((n, O) :: rest) (b0 ++ s) (b0 ++ s) (Some v) T_normal /\
    R = centries s (nch n) ++ after rest s.
(** [x] is a past-the-end iterator *)
Definition at_end (m : tnode) (b0 : list Z) (x : iter) : Prop :=
  stk x = [(m, length (nch m))] /\ buf x = b0 /\ ity x = T_end.

Lemma landed_pos (m : tnode) b0 R n st b ty : landed m b0 R n st b -> ty = T_normal ->
  exists s v R', R = (s, v) :: R' /\ pos m b0 s v R' (IT st b b (nval n) ty).
Proof.
  intros (rest & s & v & -> & Hc & -> & Hv & ->) ->. exists s, v, (centries s (nch n) ++ after rest s).
  split; auto. exists n, rest. rewrite Hv. auto.
Qed.

Lemma inc_spec (m : tnode) b0 s v R x : wf m -> pos m b0 s v R x ->
  exists x', iter_inc x = Ok x' /\
  match R with
  | [] => at_end m b0 x'
  | (s', v') :: R' => pos m b0 s' v' R' x'
  end.
Proof.
  intros Hw (n & rest & Hc & Hv & -> & ER). unfold iter_inc; cbn [stk buf ckey cval ity].
  rewrite (canon_fuel _ _ _ Hc).
  assert (Hn : wf n) by (apply (canon_wf _ _ _ Hw) in Hc; inversion Hc; auto).
  cbn [inc_loop]. destruct (nch n) as [|[c sub] cs] eqn:Ecs.
  - pose proof (go_up_spec m b0 _ s Hw Hc n O rest eq_refl) as G.
    destruct (go_up (n, 0%nat) rest (b0 ++ s)) as [[st' b]|[[sub st'] b]].
    + destruct G as (E1 & E2 & E3). cbn [bind]. eexists; split; [reflexivity|].
      cbn in ER. rewrite E1 in ER. subst R b. repeat split; cbn; auto.
      destruct E3 as [(-> & -> & ->)|[_ ->]]; auto. inversion Hc; subst. rewrite Ecs. reflexivity.
    + destruct G as (p & j & rest' & c & s' & -> & Hc' & -> & E). cbn in ER. rewrite E in ER.
      assert (Hp : wf p).
      { apply (canon_wf _ _ _ Hw) in Hc'. inversion Hc' as [|? ? ? Hc1]; subst. inversion Hc1; auto. }
      inversion Hc' as [|? ? ? ? ? ? ? Hc2 Hn2 E3 E4]; subst. apply app_inj_tail in E4 as [-> ->].
      destruct (wf_child _ _ _ _ Hp Hn2) as [Hw' Ha'].
      unfold has_value. destruct (nval sub) as [y|] eqn:Ey.
      * cbn [bind]. eexists; split; [reflexivity|].
        rewrite entries_eq. unfold own at 1. rewrite Ey. cbn [app].
        exists sub, ((p, j) :: rest'). rewrite Ey. repeat split; auto.
      * destruct (inc_down m b0 sub Hw' Ha' Ey (node_count m) ((p, j) :: rest') (s' ++ [c]) Hc') as (n' & st' & b' & E5 & L).
        { pose proof (canon_count _ _ _ Hc' _ _ _ eq_refl). cbn in H. lia. }
        rewrite E5. cbn [bind]. eexists; split; [reflexivity|].
        destruct (landed_pos _ _ _ _ _ _ T_normal L eq_refl) as (s2 & v2 & R2 & -> & P). exact P.
  - assert (Hc' : canon m ((sub, O) :: (n, O) :: rest) (s ++ [c])).
    { econstructor; eauto. rewrite Ecs. reflexivity. }
    assert (ER' : R = entries (s ++ [c]) sub ++ after ((n, O) :: rest) (s ++ [c])).
    { rewrite after_cons, Ecs. cbn [skipn]. rewrite ER, centries_cons, <- app_assoc. reflexivity. }
    destruct (wf_child n O c sub Hn) as [Hw' Ha']; [rewrite Ecs; reflexivity|].
    rewrite <- app_assoc. unfold has_value. destruct (nval sub) as [y|] eqn:Ey.
    + cbn [bind]. eexists; split; [reflexivity|]. rewrite ER', entries_eq. unfold own at 1. rewrite Ey. cbn [app].
      exists sub, ((n, O) :: rest). rewrite Ey. repeat split; auto.
    + destruct (inc_down m b0 sub Hw' Ha' Ey (node_count m) ((n, O) :: rest) (s ++ [c]) Hc') as (n' & st' & b' & E5 & L).
      { pose proof (canon_count _ _ _ Hc' _ _ _ eq_refl). cbn in H. lia. }
      rewrite E5. cbn [bind]. eexists; split; [reflexivity|]. rewrite ER'.
      destruct (landed_pos _ _ _ _ _ _ T_normal L eq_refl) as (s2 & v2 & R2 & -> & P). exact P.
Qed.

Definition tagged (b0 : list Z) (l : list (list Z * V)) : list (list Z * V) :=
  map (fun e => (b0 ++ fst e, snd e)) l.

Lemma at_end_eqb (m : tnode) b0 x y : at_end m b0 x -> at_end m b0 y -> iter_eqb x y = Ok true.
Proof.
  intros (E1 & E2 & E3) (F1 & F2 & F3). unfold iter_eqb. rewrite E1, E2, E3, F1, F2, F3.
  rewrite key_eqb_refl, Nat.eqb_refl. reflexivity.
Qed.

Lemma walk_spec (m : tnode) b0 s v R x y : wf m -> pos m b0 s v R x -> at_end m b0 y ->
  forall f, (length R + 2 <= f)%nat -> walk f x y = Ok (tagged b0 ((s, v) :: R)).
Proof.
  intros Hw. revert s v x. induction R as [|[s' v'] R IH]; intros s v x P Y f Hf.
  - destruct (inc_spec _ _ _ _ _ _ Hw P) as (x' & E & X'). destruct P as (n & rest & _ & _ & -> & _).
    destruct f as [|[|f]]; cbn in Hf; try lia.
    cbn [walk]. destruct Y as (Y1 & Y2 & Y3). unfold iter_eqb at 1. rewrite Y3. cbn [ity bind].
    unfold iter_deref; cbn [cval ckey deref bind]. rewrite E. cbn [bind walk].
    rewrite (at_end_eqb m b0 x' y X') by (repeat split; auto). reflexivity.
  - destruct (inc_spec _ _ _ _ _ _ Hw P) as (x' & E & X'). destruct P as (n & rest & _ & _ & -> & _).
    destruct f as [|f]; cbn in Hf; try lia.
    cbn [walk]. pose proof Y as (Y1 & Y2 & Y3). unfold iter_eqb at 1. rewrite Y3. cbn [ity bind].
    unfold iter_deref; cbn [cval ckey deref bind]. rewrite E. cbn [bind].
    rewrite (IH s' v' x' X' Y f) by lia. reflexivity.
Qed.

Lemma rend_at_end (m : tnode) b0 : at_end m b0 (rend (Some m, b0)).
Proof. repeat split. Qed.
Lemma tend_at_end (m : tnode) : at_end m [] (tend m).
Proof. repeat split. Qed.

(** search results *)
Lemma rbegin_spec (m : tnode) b0 : wf m -> alive m ->
  exists s v R x, entries [] m = (s, v) :: R /\ rbegin (Some m, b0) = Ok x /\ pos m b0 s v R x.
Proof.
  intros Hw Ha. unfold rbegin; cbn [fst snd].
  destruct (descend_first_spec m b0 m Hw Ha [] [] (CA0 m O)) as (n & st & b & E & L).
  rewrite app_nil_r in E. rewrite E. cbn [bind]. cbn [after] in L. rewrite app_nil_r in L.
  assert (mk_iter st b T_normal = Ok (IT st b b (nval n) T_normal)) as ->.
  { destruct L as (rest' & s' & v' & -> & _). reflexivity. }
  destruct (landed_pos _ _ _ _ _ _ T_normal L eq_refl) as (s & v & R & -> & P).
  exists s, v, R, (IT st b b (nval n) T_normal). auto.
Qed.

(** begin() of a trie without the empty key *)
Lemma tbegin_spec (m : tnode) : wf m -> nch m <> [] -> nval m = None ->
  exists s v R x, entries [] m = (s, v) :: R /\ tbegin m = Ok x /\ pos m [] s v R x.
Proof.
  intros Hw Hn Hv. destruct m as [v0 cs]. cbn in Hv, Hn. subst v0. destruct cs as [|[c sub] cs]; [congruence|].
  destruct (rbegin_spec (TN None ((c, sub) :: cs)) [] Hw) as (s & v & R & x & E & Eb & P); [right; discriminate|].
  exists s, v, R, x. split; auto.
Qed.
(** begin() of any trie: it starts at the first child *)
Lemma tbegin_gen (m : tnode) : wf m -> nch m <> [] ->
  exists s v R x, centries [] (nch m) = (s, v) :: R /\ tbegin m = Ok x /\ pos m [] s v R x.
Proof.
  intros Hw Hn. destruct m as [v0 cs]. cbn [nch] in *. destruct cs as [|[c sub] cs]; [congruence|].
  pose proof (wf_inv _ _ Hw) as [_ Hf]. inversion Hf as [|? ? [Hw' Ha'] _]; subst. cbn [snd] in *.
  unfold tbegin; cbn [nch].
  destruct (descend_first_spec (TN v0 ((c, sub) :: cs)) [] sub Hw' Ha' [(TN v0 ((c, sub) :: cs), O)] [c]) as (n & st & b & E & L).
  { apply (CA1 _ sub O (TN v0 ((c, sub) :: cs)) O [] [] c); [constructor|reflexivity]. }
  cbn [app] in E. rewrite E. cbn [bind].
  assert (mk_iter st b T_normal = Ok (IT st b b (nval n) T_normal)) as ->.
  { destruct L as (rest' & s' & v' & -> & _). reflexivity. }
  destruct (landed_pos _ _ _ _ _ _ T_normal L eq_refl) as (s & v & R & ER & P).
  exists s, v, R, (IT st b b (nval n) T_normal). split; auto.
  rewrite <- ER. rewrite centries_cons. f_equal. cbn [after nch skipn]. rewrite app_nil_r. reflexivity.
Qed.

(** find of a stored key *)
Lemma path_units_canon (m : tnode) st s : canon m st s -> path_units (tl st) = Ok s.
Proof.
  induction 1 as [i|n i p j rest s c H IH Hn]; [reflexivity|].
  cbn [tl path_units]. rewrite Hn. cbn [deref bind]. cbn [tl] in IH. rewrite IH. reflexivity.
Qed.
Lemma find_stored (m : tnode) k v : wf m -> lookup m k = Some v ->
  exists R x, find m k = Ok x /\ pos m [] k v R x.
Proof.
  intros Hw Hl. unfold lookup in Hl. destruct (find_prefix_node m k) as [n|] eqn:E; [|discriminate].
  destruct (fpns_canon _ _ _ E) as (st & E1 & Hc). unfold find. rewrite E1.
  unfold has_value. rewrite Hl. unfold build_key_buffer. rewrite (path_units_canon _ _ _ Hc). cbn [bind mk_iter].
  rewrite Hl. eexists _, _. split; [reflexivity|]. exists n, st. repeat split; auto.
Qed.

(** ** Walking back *)
Lemma descend_last_spec (m : tnode) b0 n : wf n -> alive n -> forall rest s i, canon m ((n, i) :: rest) s ->
  exists q rest' s' v E', descend_last n rest (b0 ++ s) = (q, (q, O) :: rest', b0 ++ s') /\
    canon m ((q, O) :: rest') s' /\ nval q = Some v /\ nch q = [] /\ entries s n = E' ++ [(s', v)].
Proof.
  induction n as [v cs IH] using tnode_ind2; intros Hw Ha rest s i Hc.
  destruct cs as [|x0 cs0] eqn:Ecs.
  - destruct v as [v|]; [|destruct Ha as [Ha|Ha]; cbn in Ha; congruence].
    exists (TN (Some v) []), rest, s, v, []. cbn. repeat split; auto. eapply canon_retop; eauto.
  - rewrite <- Ecs in *. assert (Hne : cs <> []) by (subst; discriminate). clear Ecs x0 cs0.
    destruct (exists_last Hne) as (cs' & [c sub] & ->).
    assert (Hgo : descend_last (TN v (cs' ++ [(c, sub)])) rest (b0 ++ s) =
                  descend_last sub ((TN v (cs' ++ [(c, sub)]), length cs') :: rest) ((b0 ++ s) ++ [c])).
    { cbn [descend_last]. set (n0 := TN v (cs' ++ [(c, sub)])). clearbody n0.
      assert (G : forall k, (fix go (l : list (Z * tnode)) (k : nat) {struct l} : tnode * stack * list Z :=
          match l with
          | [] => (n0, (n0, 0%nat) :: rest, b0 ++ s)
          | [(c, sub)] => descend_last sub ((n0, k) :: rest) ((b0 ++ s) ++ [c])
          | (c, sub) :: (_ :: _) as l' => go l' (S k)
          end) (cs' ++ [(c, sub)]) k = descend_last sub ((n0, (length cs' + k)%nat) :: rest) ((b0 ++ s) ++ [c])).
      { clear. induction cs' as [|[d e] cs' IH]; intros k; [reflexivity|].
        cbn [app length]. replace (S (length cs') + k)%nat with (length cs' + S k)%nat by lia. rewrite <- IH.
        destruct (cs' ++ [(c, sub)]) eqn:E; [destruct cs'; discriminate|]. reflexivity. }
      specialize (G O). rewrite Nat.add_0_r in G. exact G. }
    rewrite Hgo, <- app_assoc.
    pose proof (wf_inv _ _ Hw) as [_ Hf]. apply Forall_app in Hf as [_ Hf]. inversion Hf as [|? ? [Hw' Ha'] _]; subst.
    apply Forall_app in IH as [_ IH]. inversion IH as [|? ? IH1 _]; subst. cbn [snd] in *.
    destruct (IH1 Hw' Ha' ((TN v (cs' ++ [(c, sub)]), length cs') :: rest) (s ++ [c]) O) as (q & rest' & s' & y & E' & E1 & E2 & E3 & E4 & E5).
    { econstructor; [eapply canon_retop; eauto|]. cbn [nch]. rewrite nth_error_app2, Nat.sub_diag by lia. reflexivity. }
    exists q, rest', s', y, (own s (TN v (cs' ++ [(c, sub)])) ++ centries s cs' ++ E'). repeat split; auto.
    rewrite entries_eq. cbn [nch]. rewrite centries_app, centries_cons, E5. cbn [centries flat_map].
    rewrite app_nil_r, <- !app_assoc. reflexivity.
Qed.

Lemma descend_prev_spec (m : tnode) b0 p j rest s : wf m -> canon m ((p, S j) :: rest) s -> (j < length (nch p))%nat ->
  exists q rest' s' v E', descend_prev (p, S j) rest (b0 ++ s) = Ok (q, (q, O) :: rest', b0 ++ s') /\
    canon m ((q, O) :: rest') s' /\ nval q = Some v /\ nch q = [] /\
    centries s (firstn (S j) (nch p)) = E' ++ [(s', v)].
Proof.
  intros Hw Hc Hj. unfold descend_prev. destruct (nth_error (nch p) j) as [[c sub]|] eqn:E.
  2: { apply nth_error_None in E. lia. }
  cbn [deref bind snd fst]. rewrite <- app_assoc.
  assert (Hp : wf p) by (apply (canon_wf _ _ _ Hw) in Hc; inversion Hc; auto).
  destruct (wf_child _ _ _ _ Hp E) as [Hw' Ha'].
  destruct (descend_last_spec m b0 sub Hw' Ha' ((p, j) :: rest) (s ++ [c]) O) as (q & rest' & s' & y & E' & E1 & E2 & E3 & E4 & E5).
  { econstructor; eauto. eapply canon_retop; eauto. }
  exists q, rest', s', y, (centries s (firstn j (nch p)) ++ E'). rewrite E1. repeat split; auto.
  assert (firstn (S j) (nch p) = firstn j (nch p) ++ [(c, sub)]) as ->.
  { clear -E. revert E; generalize (nch p). intros l. revert j. induction l as [|x l IH]; intros [|j]; cbn; try discriminate.
    - intros E; injection E as ->. reflexivity.
    - intros E. f_equal. apply IH; auto. }
  rewrite centries_app, centries_cons, E5. cbn [centries flat_map]. rewrite app_nil_r, <- app_assoc. reflexivity.
Qed.

Lemma dec_leaf_spec (m : tnode) b0 : wf m -> forall f n i rest s, canon m ((n, i) :: rest) s -> before rest s <> [] ->
  (length rest <= f)%nat ->
  exists q rest' s' v B', dec_leaf f ((n, i) :: rest) (b0 ++ s) = Ok (q, (q, O) :: rest', b0 ++ s') /\
    canon m ((q, O) :: rest') s' /\ nval q = Some v /\ before rest s = B' ++ [(s', v)].
Proof.
  intros Hw. induction f as [|f IH]; intros n i rest s Hc Hb Hf.
  - destruct rest; [cbn in Hb; congruence|cbn in Hf; lia].
  - inversion Hc as [|? ? p j rest0 s0 c Hc0 Hn]; subst; [cbn in Hb; congruence|].
    cbn [dec_leaf tl]. rewrite rl_app. rewrite before_cons in *.
    destruct j as [|j]; cbn [Nat.eqb].
    + cbn [firstn centries flat_map] in *. rewrite app_nil_r in *.
      unfold has_value. unfold own in *. destruct (nval p) as [y|] eqn:Ey.
      * exists p, rest0, s0, y, (before rest0 s0). auto.
      * rewrite app_nil_r in *. apply IH; auto. cbn in Hf. lia.
    + destruct (descend_prev_spec m b0 p j rest0 s0 Hw Hc0) as (q & rest' & s' & v & E' & E1 & E2 & E3 & _ & E5).
      { assert (S j < length (nch p))%nat by (apply nth_error_Some; congruence). lia. }
      rewrite E1. cbn [bind]. unfold has_value. rewrite E3.
      exists q, rest', s', v, (before rest0 s0 ++ own s0 p ++ E'). rewrite E5, <- !app_assoc. auto.
Qed.

Lemma pos_total (m : tnode) b0 s v R x : wf m -> pos m b0 s v R x -> exists B, entries [] m = B ++ (s, v) :: R /\
  (forall n rest, stk x = (n, O) :: rest -> B = before rest s).
Proof.
  intros Hw (n & rest & Hc & Hv & -> & ->). exists (before rest s).
  rewrite (total _ _ _ _ _ Hc), entries_eq. unfold own. rewrite Hv. split; auto.
  cbn. intros n0 rest0 E. injection E as -> ->. reflexivity.
Qed.

(** A position is determined by its path. *)
Lemma pos_unique (m : tnode) b0 s v R x v' R' x' : wf m -> pos m b0 s v R x -> pos m b0 s v' R' x' ->
  v = v' /\ R = R' /\ x = x'.
Proof.
  intros Hw (n & rest & Hc & Hv & -> & ->) (n' & rest' & Hc' & Hv' & -> & ->).
  pose proof (canon_fpns _ _ _ _ Hw Hc) as E. rewrite (canon_fpns _ _ _ _ Hw Hc') in E.
  injection E as -> ->. rewrite Hv in Hv'. injection Hv' as ->. auto.
Qed.

Lemma dec_spec_leaf (m : tnode) b0 s v R x B s' v' : wf m -> pos m b0 s v R x ->
  (forall n rest, stk x = (n, O) :: rest -> nch n = []) ->
  entries [] m = B ++ (s', v') :: (s, v) :: R ->
  exists x', iter_dec x = Ok x' /\ pos m b0 s' v' ((s, v) :: R) x'.
Proof.
  intros Hw P Hl Hent. destruct (pos_total _ _ _ _ _ _ Hw P) as (B0 & HB & HB0).
  destruct P as (n & rest & Hc & Hv & -> & ER). specialize (Hl n rest eq_refl). specialize (HB0 n rest eq_refl). subst B0.
  assert (EB : before rest s = B ++ [(s', v')]).
  { rewrite HB in Hent. apply (app_inv_tail ((s, v) :: R)). rewrite Hent, <- app_assoc. reflexivity. }
  assert (Hb : before rest s <> []) by (rewrite EB; destruct B; discriminate).
  unfold iter_dec; cbn [stk ity buf]. rewrite (canon_fuel _ _ _ Hc).
  destruct rest as [|r0 rest0]; [cbn in Hb; congruence|].
  assert (is_leaf n = true) as -> by (unfold is_leaf; rewrite Hl; auto).
  destruct (dec_leaf_spec m b0 Hw (S (node_count m)) n O (r0 :: rest0) s Hc Hb) as (q & rest' & s2 & v2 & B' & E1 & E2 & E3 & E4).
  { pose proof (canon_count _ _ _ Hc _ _ _ eq_refl). lia. }
  rewrite E1. cbn [bind]. rewrite E3.
  rewrite EB in E4. apply app_inj_tail in E4 as [-> E4]. injection E4 as -> ->.
  eexists. split; [destruct (has_value n); reflexivity|].
  exists q, rest'. repeat split; auto.
  rewrite (total _ _ _ _ _ E2), (entries_eq s2 q) in Hent. unfold own in Hent. rewrite E3 in Hent.
  assert (before rest' s2 = B').
  { (* both sides split the same strictly sorted list at the same key *)
    pose proof (entries_sorted [] m Hw) as Hs.
    rewrite (total _ _ _ _ _ E2), (entries_eq s2 q) in Hs. unfold own in Hs. rewrite E3 in Hs.
    cbn [app] in Hent, Hs.
    set (T := centries s2 (nch q) ++ after rest' s2) in *. clearbody T.
    revert Hent Hs. generalize (before rest' s2) as X. clear. intros X.
    revert B'. induction X as [|x X IH]; intros [|y B] E Hs; auto; cbn in E.
    - injection E as <- E. exfalso. cbn in Hs. inversion Hs; subst.
      rewrite Forall_forall in H2. apply (klt_irrefl s2). apply H2. rewrite map_app. apply in_or_app. right. left; auto.
    - injection E as -> E. exfalso. cbn in Hs. inversion Hs; subst.
      rewrite Forall_forall in H2. apply (klt_irrefl s2). apply (H2 s2). rewrite map_app. apply in_or_app. right. left; auto.
    - injection E as -> E. f_equal. cbn in Hs. inversion Hs; subst. apply IH; auto. }
  subst B'. apply app_inv_head in Hent. cbn [app] in Hent. injection Hent as <-. reflexivity.
Qed.

Lemma dec_spec_end (m : tnode) b0 x B s v : wf m -> at_end m b0 x -> nval m = None ->
  entries [] m = B ++ [(s, v)] ->
  exists x', iter_dec x = Ok x' /\ pos m b0 s v [] x'.
Proof.
  intros Hw (E1 & E2 & E3) Hv Hent. unfold iter_dec. rewrite E1, E2, E3. unfold has_value. rewrite Hv.
  assert (Hn : nch m <> []).
  { intros E. rewrite entries_eq in Hent. unfold own in Hent. rewrite Hv, E in Hent. cbn in Hent. destruct B; discriminate. }
  destruct (length (nch m)) as [|j] eqn:El; [destruct (nch m); cbn in El; congruence|].
  destruct (descend_prev_spec m b0 m j [] [] Hw) as (q & rest' & s' & v' & E' & F1 & F2 & F3 & F4 & F5); [constructor|lia|].
  rewrite app_nil_r in F1. rewrite F1. cbn [bind]. rewrite F3. eexists. split; [reflexivity|].
  rewrite firstn_all2 in F5 by lia. rewrite entries_eq in Hent. unfold own in Hent. rewrite Hv in Hent. cbn [app] in Hent.
  rewrite F5 in Hent. apply app_inj_tail in Hent as [-> Hs]. injection Hs as -> ->.
  exists q, rest'. repeat split; auto.
  pose proof (total _ _ _ _ _ F2) as T. rewrite (entries_eq [] m) in T. unfold own in T at 1. rewrite Hv in T. cbn [app] in T.
  rewrite F5 in T. rewrite (entries_eq s q) in T. unfold own in T. rewrite F3 in T.
  (* the last key occurs once *)
  pose proof (entries_sorted [] m Hw) as Hs. rewrite entries_eq in Hs. unfold own in Hs. rewrite Hv in Hs. cbn [app] in Hs. rewrite F5, T in Hs.
  cbn [app] in T, Hs. set (U := centries s (nch q) ++ after rest' s) in *. clearbody U.
  destruct U as [|u U] using rev_ind; auto. clear IHU. exfalso.
  change ((s, v) :: U ++ [u]) with (((s, v) :: U) ++ [u]) in T. rewrite app_assoc in T. apply app_inj_tail in T as [_ <-].
  rewrite map_app in Hs. clear -Hs. induction (map fst (before rest' s)) as [|y l IH]; cbn in Hs; inversion Hs; subst; auto.
  rewrite Forall_forall in H2. apply (klt_irrefl s). apply H2. rewrite map_app. apply in_or_app. right. left; auto.
Qed.
End TRIEP.
