(** Theorems about trie_map, part 2: what -- does where C23 does not hold. *)
From Coq Require Import List ZArith Lia Bool Arith Sorted.
From Verif Require Import Base TrieModel TrieSpec TrieProofs TrieProofs2 TrieProofs3 TrieProps TrieBack.
Import ListNotations.
Open Scope Z_scope.

Section C23.
Context {V : Type}.

(** The iterator of a stored key that other keys extend *)
Lemma inner_case (tr : tnode V) m c t v : shows tr m -> m (c :: t) = Some v -> (exists d s, m ((c :: t) ++ d :: s) <> None) ->
  exists n r rest, find tr (c :: t) = Ok (IT ((n, O) :: r :: rest) (c :: t) (c :: t) (Some v) T_normal) /\
    canon tr ((n, O) :: r :: rest) (c :: t) /\ is_leaf n = false /\ has_value n = true.
Proof.
  intros H Hk (d & s & He). pose proof H as Sh. pose proof Sh as [Hw Hm].
  destruct (find_pos _ _ _ _ Sh Hk) as (R & x & Ef & n & rest & Hc & Hv & -> & _). cbn [app] in Ef.
  destruct rest as [|r rest]; [inversion Hc|].
  - exists n, r, rest. split; [exact Ef|]. split; [exact Hc|]. unfold has_value. rewrite Hv. split; [|reflexivity].
    unfold is_leaf. destruct (nch n) eqn:En; [|reflexivity]. exfalso. apply He.
    rewrite <- Hm, (lookup_app _ _ _ _ (canon_find _ _ _ _ _ Hw Hc)), lookup_cons, En. reflexivity.
Qed.

Lemma back_over_prefix (tr : tnode V) m p c r v v2 : shows tr m ->
  p <> [] -> m p = Some v -> m (p ++ c :: r) = Some v2 -> (exists d s, m ((p ++ c :: r) ++ d :: s) <> None) ->
  (forall q q', p ++ c :: r = q ++ q' -> q' <> [] -> (length p < length q)%nat -> m q = None) ->
  exists x1 x2 x b, find tr p = Ok x1 /\ find tr (p ++ c :: r) = Ok x2 /\
    iter_dec x2 = Ok x /\ iter_deref x = Ok (p, v) /\ iter_eqb x x1 = Ok b /\
    (b = true <-> forall d s, m (p ++ d :: s) <> None -> c <= d).
Proof.
  intros H Np Hp Hk He Hlong. pose proof H as Sh. pose proof Sh as [Hw Hm].
  destruct (find_pos _ _ _ _ Sh Hp) as (R1 & x1 & Ef1 & n1 & rest1 & Hc1 & Hv1 & -> & _). cbn [app] in Ef1.
  destruct p as [|a p]; [congruence|]. cbn [app] in *.
  destruct (inner_case tr m a (p ++ c :: r) v2 H Hk He) as (n & r0 & rest & Ef2 & Hc & Hl & Hvn).
  set (k := a :: p ++ c :: r) in *. eexists. eexists.
  assert (Hd : (length (r0 :: rest) <= stack_fuel ((n, O) :: r0 :: rest))%nat).
  { rewrite (canon_fuel _ _ _ Hc). pose proof (canon_count _ _ _ Hc _ _ _ eq_refl). cbn [length] in *. lia. }
  destruct (dec_inner_spec tr [] Hw (stack_fuel ((n, O) :: r0 :: rest)) n O (r0 :: rest) k Hc ltac:(discriminate) Hd) as [D|D].
  - destruct D as (s1 & r1 & q & j & rest' & v1 & Ek & N1 & Nr & Hcq & Hvq & (sub & Hj) & Ed & Hmax).
    assert (s1 = a :: p /\ r1 = c :: r) as [-> ->].
    { assert (L : length s1 = length (a :: p)).
      { destruct (lt_eq_lt_dec (length s1) (length (a :: p))) as [[L|L]|L]; [exfalso|exact L|exfalso].
        - specialize (Hmax (a :: p) (c :: r) eq_refl ltac:(discriminate) L). rewrite Hm in Hmax. congruence.
        - specialize (Hlong s1 r1 Ek Nr L). rewrite <- Hm, (canon_lookup _ _ _ _ _ Hw Hcq) in Hlong. congruence. }
      destruct (app_len_inj s1 r1 (a :: p) (c :: r) (eq_sym Ek) L); auto. }
    assert (v1 = v) as ->.
    { pose proof (canon_lookup _ _ _ _ _ Hw Hcq) as E. rewrite Hm in E. congruence. }
    eexists. exists (Nat.eqb j 0). split; [exact Ef1|]. split; [exact Ef2|].
    unfold iter_dec. cbn [stk ity buf]. rewrite Hl. cbn [app] in Ed. rewrite Ed. cbn [bind].
    split; [destruct (has_value n); reflexivity|].
    rewrite Hvq. split; [reflexivity|]. split.
    + unfold iter_eqb. cbn [ity stk buf]. now rewrite key_eqb_refl.
    + cbn [hd] in Hj. assert (Hwq : wf q) by (apply (canon_wf _ _ _ Hw) in Hcq; inversion Hcq; auto).
      destruct (wf_kids _ Hwq) as [Hs Hf]. destruct (ksorted_firstn _ _ _ _ Hs Hj) as [L R].
      assert (Hlk : forall u, m ((a :: p) ++ u) = lookup q u).
      { intros u. rewrite <- Hm. apply lookup_app. exact (canon_find _ _ _ _ _ Hw Hcq). }
      split.
      * intros E d s Hds. apply Nat.eqb_eq in E. subst j. change (a :: p ++ d :: s) with ((a :: p) ++ d :: s) in Hds.
        rewrite Hlk, lookup_cons in Hds. destruct (find_child d (nch q)) as [[i w]|] eqn:Ec; [|congruence].
        apply find_child_nth in Ec. apply nth_error_In in Ec. exact (R _ _ Ec).
      * intros Hall. apply Nat.eqb_eq. destruct j as [|j]; [reflexivity|]. exfalso.
        destruct (nch q) as [|[d0 n0] cs] eqn:En; [discriminate|].
        assert (d0 < c) by (apply (L d0 n0); left; reflexivity).
        destruct (wf_child q O d0 n0 Hwq) as [W0 A0]; [rewrite En; reflexivity|].
        destruct (alive_has_key n0 W0 A0) as (u & w & Hu).
        assert (Hd0 : m ((a :: p) ++ d0 :: u) <> None).
        { rewrite Hlk, lookup_cons, En. cbn [find_child]. rewrite Z.eqb_refl, Hu. discriminate. }
        specialize (Hall d0 u Hd0). lia.
  - exfalso. destruct D as [D _]. specialize (D (a :: p) (c :: r) eq_refl ltac:(discriminate) ltac:(discriminate)). rewrite Hm in D. congruence.
Qed.

Lemma back_to_left (tr : tnode V) m c t v d u w : shows tr m ->
  m (c :: t) = Some v -> (exists e s, m ((c :: t) ++ e :: s) <> None) ->
  (forall q q', c :: t = q ++ q' -> q <> [] -> q' <> [] -> m q = None) ->
  m (d :: u) = Some w -> d < c -> (forall e s, e < c -> m (e :: s) <> None -> e :: s = d :: u \/ klt (e :: s) (d :: u)) ->
  exists x1 x2, find tr (d :: u) = Ok x1 /\ find tr (c :: t) = Ok x2 /\ iter_dec x2 = Ok x1.
Proof.
  intros H Hk He Hno Hd Hlt Hmax. pose proof H as Sh. pose proof Sh as [Hw Hm].
  destruct (find_pos _ _ _ _ Sh Hd) as (R1 & x1 & Ef1 & P1).
  destruct (inner_case tr m c t v H Hk He) as (n & r0 & rest & Ef2 & Hc & Hl & Hvn). exists x1. eexists. split; [exact Ef1|]. split; [exact Ef2|].
  assert (Hle : (length (r0 :: rest) <= stack_fuel ((n, O) :: r0 :: rest))%nat).
  { rewrite (canon_fuel _ _ _ Hc). pose proof (canon_count _ _ _ Hc _ _ _ eq_refl). cbn [length] in *. lia. }
  destruct (dec_inner_spec tr [] Hw (stack_fuel ((n, O) :: r0 :: rest)) n O (r0 :: rest) (c :: t) Hc ltac:(discriminate) Hle) as [D|[_ D]].
  - exfalso. destruct D as (s1 & r1 & q & j & rest' & v1 & Ek & N1 & Nr & Hcq & Hvq & _).
    specialize (Hno s1 r1 Ek N1 Nr). rewrite <- Hm, (canon_lookup _ _ _ _ _ Hw Hcq) in Hno. congruence.
  - destruct D as (j & c1 & sub & t1 & Hj & Ec & D). injection Ec as <- <-.
    assert (Hin : In (d :: u, w) (centries [] (firstn j (nch tr)))).
    { apply (in_left tr j c sub _ _ Hw Hj). exists d, u. rewrite Hm. auto. }
    destruct D as [[-> _]|(j' & q & rest' & s' & v' & E' & -> & Ed & Hcq & Hvq & El)]; [cbn in Hin; destruct Hin|].
    assert (s' = d :: u).
    { pose proof (left_sorted tr (S j') Hw) as Hs. rewrite El, map_app in Hs. apply ss_split in Hs as (_ & _ & Hs).
      rewrite El in Hin. apply in_app_or in Hin. destruct Hin as [Hin|[E|[]]]; [exfalso|congruence].
      assert (Hs1 : klt (d :: u) s').
      { apply Hs; [apply (in_map fst) in Hin; exact Hin|left; reflexivity]. }
      assert (Hi : In (s', v') (centries [] (firstn (S j') (nch tr)))) by (rewrite El; apply in_or_app; right; left; reflexivity).
      apply (in_left tr (S j') c sub _ _ Hw Hj) in Hi. destruct Hi as (e & s & -> & He1 & He2). rewrite Hm in He2.
      destruct (Hmax e s He1 ltac:(congruence)) as [E|L]; [rewrite E in Hs1; exact (klt_irrefl _ Hs1)|].
      exact (klt_irrefl _ (klt_trans _ _ _ Hs1 L)). }
    subst s'. unfold iter_dec. cbn [stk ity buf]. rewrite Hl. cbn [app] in Ed. rewrite Ed. cbn [bind]. rewrite Hvq.
    assert (E : IT ((q, 0%nat) :: rest') (d :: u) (d :: u) (Some v') T_normal = x1).
    { eapply (pos_unique tr [] (d :: u)); [exact Hw| |exact P1]. exists q, rest'. repeat split; auto. }
    rewrite <- E. destruct (has_value n); reflexivity.
Qed.

Lemma back_undefined (tr : tnode V) m c t v : shows tr m ->
  m (c :: t) = Some v -> (exists e s, m ((c :: t) ++ e :: s) <> None) ->
  (forall q q', c :: t = q ++ q' -> q <> [] -> q' <> [] -> m q = None) ->
  (forall e s, e < c -> m (e :: s) = None) ->
  exists x2, find tr (c :: t) = Ok x2 /\ iter_dec x2 = Undef.
Proof.
  intros H Hk He Hno Hmin. pose proof H as Sh. pose proof Sh as [Hw Hm].
  destruct (inner_case tr m c t v H Hk He) as (n & r0 & rest & Ef2 & Hc & Hl & Hvn). eexists. split; [exact Ef2|].
  assert (Hle : (length (r0 :: rest) <= stack_fuel ((n, O) :: r0 :: rest))%nat).
  { rewrite (canon_fuel _ _ _ Hc). pose proof (canon_count _ _ _ Hc _ _ _ eq_refl). cbn [length] in *. lia. }
  destruct (dec_inner_spec tr [] Hw (stack_fuel ((n, O) :: r0 :: rest)) n O (r0 :: rest) (c :: t) Hc ltac:(discriminate) Hle) as [D|[_ D]].
  - exfalso. destruct D as (s1 & r1 & q & j & rest' & v1 & Ek & N1 & Nr & Hcq & Hvq & _).
    specialize (Hno s1 r1 Ek N1 Nr). rewrite <- Hm, (canon_lookup _ _ _ _ _ Hw Hcq) in Hno. congruence.
  - destruct D as (j & c1 & sub & t1 & Hj & Ec & D). injection Ec as <- <-.
    destruct D as [[-> Ed]|(j' & q & rest' & s' & v' & E' & -> & Ed & Hcq & Hvq & El)].
    + unfold iter_dec. cbn [stk ity buf]. rewrite Hl. cbn [app] in Ed. rewrite Ed. destruct (has_value n); reflexivity.
    + exfalso. assert (Hi : In (s', v') (centries [] (firstn (S j') (nch tr)))) by (rewrite El; apply in_or_app; right; left; reflexivity).
      apply (in_left tr (S j') c sub _ _ Hw Hj) in Hi. destruct Hi as (e & s & -> & He1 & He2). rewrite Hm, Hmin in He2 by exact He1. discriminate.
Qed.

(** Stepping back from a key that other keys extend goes to the longest stored key that is a
    proper non-empty prefix of it, whatever lies between them. The iterator equals the one that
    find gives only when the path to the key is the first one below the prefix *)
Theorem C23_back_over_prefix (os : list (top V)) m p c r v v2 : after_calls os m ->
  p <> [] -> m p = Some v -> m (p ++ c :: r) = Some v2 -> (exists d s, m ((p ++ c :: r) ++ d :: s) <> None) ->
  (forall q q', p ++ c :: r = q ++ q' -> q' <> [] -> (length p < length q)%nat -> m q = None) ->
  exists x1 x2 x b, find (trun os) p = Ok x1 /\ find (trun os) (p ++ c :: r) = Ok x2 /\
    iter_dec x2 = Ok x /\ iter_deref x = Ok (p, v) /\ iter_eqb x x1 = Ok b /\
    (b = true <-> forall d s, m (p ++ d :: s) <> None -> c <= d).
Proof. intros H. exact (back_over_prefix _ _ _ _ _ _ _ (calls_show _ _ H)). Qed.

(** Without such a prefix it goes to the last key that starts with a smaller unit ... *)
Theorem C23_back_to_left (os : list (top V)) m c t v d u w : after_calls os m ->
  m (c :: t) = Some v -> (exists e s, m ((c :: t) ++ e :: s) <> None) ->
  (forall q q', c :: t = q ++ q' -> q <> [] -> q' <> [] -> m q = None) ->
  m (d :: u) = Some w -> d < c -> (forall e s, e < c -> m (e :: s) <> None -> e :: s = d :: u \/ klt (e :: s) (d :: u)) ->
  exists x1 x2, find (trun os) (d :: u) = Ok x1 /\ find (trun os) (c :: t) = Ok x2 /\ iter_dec x2 = Ok x1.
Proof. intros H. exact (back_to_left _ _ _ _ _ _ _ _ (calls_show _ _ H)). Qed.

(** ... and without such a key either, it is undefined, even when the empty key is stored *)
Theorem C23_back_undefined (os : list (top V)) m c t v : after_calls os m ->
  m (c :: t) = Some v -> (exists e s, m ((c :: t) ++ e :: s) <> None) ->
  (forall q q', c :: t = q ++ q' -> q <> [] -> q' <> [] -> m q = None) ->
  (forall e s, e < c -> m (e :: s) = None) ->
  exists x2, find (trun os) (c :: t) = Ok x2 /\ iter_dec x2 = Undef.
Proof. intros H. exact (back_undefined _ _ _ _ _ (calls_show _ _ H)). Qed.

(** Stepping back from the end of a trie that stores the empty key, or from the end of the results
    for a prefix that is itself stored, goes to that key *)
Theorem C23_back_from_end_stored (os : list (top V)) m v : after_calls os m -> m [] = Some v ->
  exists x, iter_dec (tend (trun os)) = Ok x /\ iter_deref x = Ok ([], v) /\ iter_eqb x (tend (trun os)) = Ok false.
Proof.
  intros H Hv. pose proof (calls_show _ _ H) as [Hw Hm]. rewrite <- Hm, lookup_nil in Hv.
  unfold iter_dec, tend. cbn [stk ity buf]. unfold has_value. rewrite Hv. eexists. split; [reflexivity|]. split; reflexivity.
Qed.
Theorem C23_back_in_results_stored (os : list (top V)) m p v : after_calls os m -> m p = Some v ->
  exists x, iter_dec (rend (prefix_search (trun os) p)) = Ok x /\ iter_deref x = Ok (p, v).
Proof.
  intros H Hv. pose proof (calls_show _ _ H) as [Hw Hm]. rewrite <- Hm in Hv. unfold lookup in Hv.
  unfold prefix_search, rend. cbn [fst snd]. destruct (find_prefix_node (trun os) p) as [n|]; [|discriminate].
  unfold iter_dec. cbn [stk ity buf]. unfold has_value. rewrite Hv. eexists. split; reflexivity.
Qed.
End C23.

(** "", "x" stored: -- from end() shows the empty key, which is the first and not the last. "x"
    and "xa" stored: -- from the end of the results for "x" shows "x". "x", "xa", "xb" and "xbc"
    stored: -- from "xb" shows "x" with an iterator that differs from find("x") *)
Theorem C23_end_refuted :
  (exists (os : list (top nat)) m l A x, after_calls os m /\ listing m l /\ l = A ++ [([120], 2%nat)] /\
     iter_dec (tend (trun os)) = Ok x /\ iter_deref x = Ok ([], 1%nat)) /\
  (exists (os : list (top nat)) m x, after_calls os m /\ m [120; 97] = Some 2%nat /\
     iter_dec (rend (prefix_search (trun os) [120])) = Ok x /\ iter_deref x = Ok ([120], 1%nat)) /\
  (exists (os : list (top nat)) m x1 x2 x, after_calls os m /\ find (trun os) [120] = Ok x1 /\ find (trun os) [120; 98] = Ok x2 /\
     iter_dec x2 = Ok x /\ iter_deref x = iter_deref x1 /\ iter_eqb x x1 = Ok false).
Proof.
  split; [|split].
  - destruct (C19_total [Insert [] 1%nat; Insert [120] 2%nat]) as [m H].
    eexists _, m, _, [([], 1%nat)], _. split; [exact H|]. split; [apply listing_entries; apply calls_show; exact H|]. vm_compute. repeat split.
  - destruct (C19_total [Insert [120] 1%nat; Insert [120; 97] 2%nat]) as [m H].
    eexists _, m, _. split; [exact H|]. destruct (calls_show _ _ H) as [_ Hm]. rewrite <- Hm. vm_compute. repeat split.
  - destruct (C19_total [Insert [120] 1%nat; Insert [120; 97] 2%nat; Insert [120; 98] 3%nat; Insert [120; 98; 99] 4%nat]) as [m H].
    eexists _, m, _, _, _. split; [exact H|]. vm_compute. repeat split.
Qed.

(** The hypotheses hold: "x", "xa", "xb", "xbc" and "y", "ya" stored *)
Definition ex_back : list (top nat) :=
  [Insert [120] 1%nat; Insert [120; 97] 2%nat; Insert [120; 98] 3%nat; Insert [120; 98; 99] 4%nat; Insert [121] 5%nat; Insert [121; 97] 6%nat].
Ltac ex_look Hm := rewrite <- ?Hm; vm_compute; try reflexivity; try discriminate.
Example C23_back_over_prefix_ex : exists m, after_calls ex_back m /\ m [120] = Some 1%nat /\ m ([120] ++ 98 :: []) = Some 3%nat /\
  (exists d s, m (([120] ++ 98 :: []) ++ d :: s) <> None) /\
  (forall q q', [120] ++ 98 :: [] = q ++ q' -> q' <> [] -> (length [120] < length q)%nat -> m q = None).
Proof.
  destruct (C19_total ex_back) as [m H]. exists m. split; [exact H|]. destruct (calls_show _ _ H) as [_ Hm].
  split; [ex_look Hm|]. split; [ex_look Hm|]. split; [exists 99, []; ex_look Hm|].
  intros q q' E N L. exfalso. apply (f_equal (@length Z)) in E. rewrite !app_length in E. destruct q'; [congruence|]. cbn in E, L. lia.
Qed.
Example C23_back_to_left_ex : exists m, after_calls ex_back m /\ m (121 :: []) = Some 5%nat /\ (exists e s, m ((121 :: []) ++ e :: s) <> None) /\
  m (120 :: [98; 99]) = Some 4%nat /\ (exists x1 x2, find (trun ex_back) [120; 98; 99] = Ok x1 /\ find (trun ex_back) [121] = Ok x2 /\ iter_dec x2 = Ok x1).
Proof.
  destruct (C19_total ex_back) as [m H]. exists m. split; [exact H|]. destruct (calls_show _ _ H) as [_ Hm].
  split; [ex_look Hm|]. split; [exists 97, []; ex_look Hm|]. split; [ex_look Hm|].
  eexists. eexists. split; [vm_compute; reflexivity|]. split; vm_compute; reflexivity.
Qed.
Example C23_back_undefined_ex : exists m, after_calls ex_back m /\ m (120 :: []) = Some 1%nat /\ (exists e s, m ((120 :: []) ++ e :: s) <> None) /\
  (forall e s, e < 120 -> m (e :: s) = None).
Proof.
  destruct (C19_total ex_back) as [m H]. exists m. split; [exact H|]. destruct (calls_show _ _ H) as [_ Hm].
  split; [ex_look Hm|]. split; [exists 97, []; ex_look Hm|].
  intros e s He. rewrite <- Hm, lookup_cons.
  destruct (find_child e (nch (trun ex_back))) as [[i n]|] eqn:E; [|reflexivity]. apply find_child_nth in E. apply nth_error_In in E.
  assert (K : map fst (nch (trun ex_back)) = [120; 121]) by (vm_compute; reflexivity).
  apply (in_map fst) in E. rewrite K in E. cbn [fst In] in E. lia.
Qed.
Example C23_back_from_end_stored_ex : exists m, after_calls [Insert [] 1%nat; Insert [120] 2%nat] m /\ m [] = Some 1%nat.
Proof. destruct (C19_total [Insert [] 1%nat; Insert [120] 2%nat]) as [m H]. exists m. split; [exact H|]. destruct (calls_show _ _ H) as [_ Hm]. ex_look Hm. Qed.

(** One query for all the theorems of this file. *)
Definition TrieProps2_theorems :=
  (@C23_back_over_prefix, @C23_back_to_left, @C23_back_undefined, @C23_back_from_end_stored, @C23_back_in_results_stored, @C23_end_refuted).
Print Assumptions TrieProps2_theorems.
