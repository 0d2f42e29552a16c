(** Where -- takes an iterator of a packed map, exactly (C65). *)
From Coq Require Import List ZArith Lia Bool Arith Sorted.
From Verif Require Import Base TrieModel TrieSpec TrieProofs TrieProofs2 TrieProofs3 TrieProps TrieBack TrieProps2
  PackModel PackSpec PackProofs PackSim PackSim2 PackBridge PackProps.
Import ListNotations.
Open Scope Z_scope.

Section BACK.
Context {V : Type}.
Variable T : ptraits.
Hypothesis HT : pt_ok T.
Local Notation tnode := (tnode V).
Section SIM3.
Variable m : pmap V.
Local Notation b := (pk m).
Local Notation s := (store m).
Local Notation srel := (srel T m).

Lemma pdec_inner_ok o0 : forall f f' st pst bf q st' bf', srel o0 st pst ->
  dec_inner f st bf = Ok (q, st', bf') -> (f <= f')%nat ->
  exists pst' z, pdec_inner T f' b pst bf = Ok (pst', bf', z) /\ srel o0 st' pst' /\ slot_ok T s z (nval q) /\ nval q <> None.
Proof using HT.
  induction f as [|f IH]; intros f' st pst bf q st' bf' S E Hf; [discriminate|]. destruct f' as [|f']; [lia|].
  cbn [dec_inner] in E. cbn [pdec_inner]. inversion S as [|x [p i] it ip st0 pst0 I Hy S']; subst; [discriminate|].
  cbn [tl] in *. cbn [fst snd] in *. pose proof (srel_head _ _ _ _ _ _ _ S') as I'.
  destruct (irel_value _ _ _ _ I') as (z & Ez & Sz). rewrite Ez. cbn [bind]. cbn [fst] in Sz.
  inversion S' as [? ? I2 Eo E1 E2|? y2 ? ip2 st2 pst2 I2 Hy2 S2 E1 E2]; subst.
  - destruct i as [|j]; [discriminate|]. unfold descend_prev in E.
    destruct (nth_error (nch p) j) as [[c sub]|] eqn:En; [|discriminate]. cbn [deref bind fst snd] in E.
    destruct (pdescend_prev_ok T HT m _ sub (length b) p j [] ip [] (removelast bf) c S' En) as (pst1 & F1 & S1 & i1 & st1 & F2).
    { pose proof (srel_counts T m _ _ _ S' p (Datatypes.S j) (or_introl eq_refl)). pose proof (node_count_child _ _ _ _ En). lia. }
    rewrite F1. cbn [bind]. destruct (descend_last sub [(p, j)] (removelast bf ++ [c])) as [[q1 st2] bf2] eqn:Ed. cbn [fst snd] in *. subst st2.
    cbn [bind] in E. destruct (srel_shape _ _ _ _ _ S1) as (x1 & st2 & it1 & pst2 & Ex & -> & I1). injection Ex as <- <-.
    unfold top_value. destruct (irel_value _ _ _ _ I1) as (z1 & Ez1 & Sz1). rewrite Ez1. cbn [bind].
    cbn [fst] in Sz1. rewrite (slot_null _ _ _ _ Sz1). unfold has_value in E. destruct (nval q1) as [a|] eqn:Ea.
    + injection E as <- <- <-. eexists _, z1. split; [reflexivity|]. rewrite Ea. split; auto. split; auto. congruence.
    + apply (IH f' _ _ _ _ _ _ S1 E). lia.
  - cbn [bind]. rewrite (slot_null _ _ _ _ Sz). unfold has_value in E. destruct (nval p) as [a|] eqn:Ea.
    + injection E as <- <- <-. eexists _, z. split; [reflexivity|]. rewrite Ea. split; auto. split; auto. congruence.
    + apply (IH f' _ _ _ _ _ _ S' E). lia.
Qed.

Lemma pdec_inner_case o0 n b0 k v R x px x' : pos n b0 k v R x -> isim T m o0 x px ->
  (forall q rest, stk x = (q, O) :: rest -> nch q <> []) -> k <> [] -> iter_dec x = Ok x' ->
  exists px', piter_dec T m px = Ok px' /\ isim T m o0 x' px'.
Proof using HT.
  intros (q & rest & C & Hv & -> & _) (S & Hb & Ht & Hp & _) Hl Hk E. cbn [stk buf ity cval] in *.
  specialize (Hl q rest eq_refl). unfold iter_dec in E. cbn [stk buf ity] in E.
  inversion C as [|? ? p j rest0 k0 c C0 En]; subst; [congruence|].
  assert (is_leaf q = false) as El by (unfold is_leaf; destruct (nch q); [congruence|auto]). rewrite El in E.
  rewrite (canon_fuel _ _ _ C) in E.
  assert (E' : (let* r := dec_inner (Datatypes.S (node_count n)) ((q, O) :: (p, j) :: rest0) (b0 ++ k0 ++ [c]) in
     Ok (let '(n0, st, b1) := r in IT st b1 b1 (nval n0) T_normal)) = Ok x') by (destruct (has_value q); exact E). clear E.
  destruct (dec_inner (Datatypes.S (node_count n)) ((q, O) :: (p, j) :: rest0) (b0 ++ k0 ++ [c])) as [[[n1 st1] bf1]| |] eqn:Ed; try discriminate.
  cbn [bind] in E'. injection E' as <-.
  destruct (pdec_inner_ok o0 _ (length b) _ _ _ _ _ _ S Ed) as (pst' & z & E1 & S1 & Sz & Hz).
  { exact (srel_fuel T m o0 n _ _ _ C S). }
  inversion S as [|? ? it ip st' pst0 I Hy S' E2 E3]; subst. unfold piter_dec. rewrite <- E3 in *. rewrite Hb, Ht.
  destruct (irel_value _ _ _ _ I) as (z0 & Ez0 & Sz0). rewrite Ez0. cbn [bind]. rewrite (irel_size _ _ _ _ I). cbn [bind fst].
  replace (Z.of_nat (2 * length (nch q)) =? 0) with false by (symmetry; apply Z.eqb_neq; destruct (nch q); [congruence|cbn [length]; lia]).
  rewrite E1. cbn [bind]. eexists. split; [reflexivity|]. repeat split; auto. cbn [cval pcur]. intros _.
  destruct (nval n1) as [a|]; [|congruence]. exists a. split; auto. apply Sz.
Qed.
End SIM3.

(** The iterator of a stored key that others extend, in the packed map and in the tree it represents *)
Lemma pinner (pm : pmap V) m c t v : made T pm m -> m (c :: t) = Some v -> (exists d s, m ((c :: t) ++ d :: s) <> None) ->
  exists tr x2 px2, shows tr m /\ find tr (c :: t) = Ok x2 /\ pfind T pm (c :: t) = Ok px2 /\
    forall x, iter_dec x2 = Ok x -> forall k w, iter_deref x = Ok (k, w) -> (ity x = T_normal -> ckey x = buf x) -> ity x = T_normal ->
      exists px, piter_dec T pm px2 = Ok px /\ piter_deref pm px = Ok (k, w).
Proof using HT.
  intros H Hk He. destruct (made_packed T HT pm m H) as (tr & P). pose proof P as (Pk & Sh & _). pose proof Sh as [Hw Hm].
  destruct (pfind_stored T HT pm m tr P _ _ Hk) as (o & x2 & R & px2 & e & _ & Ps & Ef & S & _).
  destruct (find_pos _ _ _ _ Sh Hk) as (R' & x2' & Ef' & Ps'). destruct (pos_unique _ _ _ _ _ _ _ _ _ Hw Ps Ps') as (_ & _ & <-).
  exists tr, x2, px2. split; [exact Sh|]. split; [exact Ef'|]. split; [exact Ef|].
  intros x Ed k w Edr Hc Hn.
  destruct (pdec_inner_case pm o tr [] (c :: t) v R x2 px2 x Ps S) as (px & Ep & (Sx1 & Sx2 & Sx3 & Sx4 & Sx5)); [|discriminate|exact Ed|].
  - intros q rest Es Eq. destruct Ps as (n & rest' & Hca & Hv & -> & _). cbn [stk] in Es. injection Es as -> ->.
    destruct He as (d & u & He). apply He. rewrite <- Hm, (lookup_app _ _ _ _ (canon_find _ _ _ _ _ Hw Hca)), lookup_cons, Eq. reflexivity.
  - exists px. split; [exact Ep|]. unfold piter_deref. rewrite Sx4. destruct (Sx5 Hn) as (w' & E1 & E2). rewrite E2. cbn [deref bind].
    unfold iter_deref in Edr. rewrite E1 in Edr. cbn [deref bind] in Edr. injection Edr as <- <-. rewrite Sx2, (Hc Hn). reflexivity.
Qed.
Lemma dec_shape (x x' : iter V) : ity x = T_normal -> iter_dec x = Ok x' -> ity x' = T_normal /\ ckey x' = buf x'.
Proof using Type.
  intros Hn. unfold iter_dec. destruct (stk x) as [|[cur i] rest]; [discriminate|]. rewrite Hn.
  destruct (has_value cur); destruct rest as [|r rest].
  1, 3: destruct (descend_prev (cur, i) [] (buf x)) as [[[n st] b]| |]; cbn [bind]; intros E; try discriminate; injection E as <-; auto.
  all: destruct (is_leaf cur).
  1, 3: destruct (dec_leaf _ _ _) as [[[n st] b]| |]; cbn [bind]; intros E; try discriminate; injection E as <-; auto.
  all: destruct (dec_inner _ _ _) as [[[n st] b]| |]; cbn [bind]; intros E; try discriminate; injection E as <-; auto.
Qed.
Lemma find_normal (tr : tnode) m k v x : shows tr m -> m k = Some v -> find tr k = Ok x -> ity x = T_normal.
Proof using Type.
  intros Sh Hk E. destruct (find_pos _ _ _ _ Sh Hk) as (R & x' & E' & n & rest & _ & _ & -> & _). rewrite E in E'. injection E' as ->. reflexivity.
Qed.

(** Stepping back from a key that other keys extend goes to the longest stored key that is a
    proper non-empty prefix of it, whatever lies between them ... *)
Theorem C65_back_over_prefix (pm : pmap V) m p c r v v2 : made T pm m ->
  p <> [] -> m p = Some v -> m (p ++ c :: r) = Some v2 -> (exists d s, m ((p ++ c :: r) ++ d :: s) <> None) ->
  (forall q q', p ++ c :: r = q ++ q' -> q' <> [] -> (length p < length q)%nat -> m q = None) ->
  exists x2 x, pfind T pm (p ++ c :: r) = Ok x2 /\ piter_dec T pm x2 = Ok x /\ piter_deref pm x = Ok (p, v).
Proof using HT.
  intros H Np Hp Hk He Hlong. destruct p as [|a p]; [congruence|]. cbn [app] in Hk, He |- *.
  destruct (pinner pm m a (p ++ c :: r) v2 H Hk He) as (tr & x2 & px2 & Sh & Ef & Epf & Hs).
  destruct (back_over_prefix tr m (a :: p) c r v v2 Sh Np Hp Hk He Hlong) as (x1 & x2' & x & bb & _ & Ef' & Ed & Er & _).
  cbn [app] in Ef'. rewrite Ef in Ef'. injection Ef' as <-. destruct (dec_shape x2 x (find_normal _ _ _ _ _ Sh Hk Ef) Ed) as [Hn Hc].
  destruct (Hs x Ed _ _ Er (fun _ => Hc) Hn) as (px & E1 & E2). exists px2, px. auto.
Qed.
(** ... and without such a prefix to the last key that starts with a smaller unit *)
Theorem C65_back_to_left (pm : pmap V) m c t v d u w : made T pm m ->
  m (c :: t) = Some v -> (exists e s, m ((c :: t) ++ e :: s) <> None) ->
  (forall q q', c :: t = q ++ q' -> q <> [] -> q' <> [] -> m q = None) ->
  m (d :: u) = Some w -> d < c -> (forall e s, e < c -> m (e :: s) <> None -> e :: s = d :: u \/ klt (e :: s) (d :: u)) ->
  exists x2 x, pfind T pm (c :: t) = Ok x2 /\ piter_dec T pm x2 = Ok x /\ piter_deref pm x = Ok (d :: u, w).
Proof using HT.
  intros H Hk He Hno Hd Hlt Hmax.
  destruct (pinner pm m c t v H Hk He) as (tr & x2 & px2 & Sh & Ef & Epf & Hs).
  destruct (back_to_left tr m c t v d u w Sh Hk He Hno Hd Hlt Hmax) as (x1 & x2' & Ef1 & Ef2 & Ed).
  rewrite Ef in Ef2. injection Ef2 as <-. destruct (dec_shape x2 x1 (find_normal _ _ _ _ _ Sh Hk Ef) Ed) as [Hn Hc].
  assert (Er : iter_deref x1 = Ok (d :: u, w)).
  { destruct (find_pos _ _ _ _ Sh Hd) as (R & x' & E' & Ps). rewrite Ef1 in E'. injection E' as ->. exact (pos_deref _ _ _ _ _ _ Ps). }
  destruct (Hs x1 Ed _ _ Er (fun _ => Hc) Hn) as (px & E1 & E2). exists px2, px. auto.
Qed.

(** Stepping back from the end of a map that stores the empty key goes to that key *)
Theorem C65_back_from_end_stored (pm : pmap V) m v : made T pm m -> m [] = Some v ->
  exists e x, pend T pm = Ok e /\ piter_dec T pm e = Ok x /\ piter_deref pm x = Ok ([], v) /\ piter_eqb x e = Ok false.
Proof using HT.
  intros H Hv. destruct (made_packed T HT pm m H) as (tr & P). pose proof P as (Pk & Sh & _). pose proof Sh as [Hw Hm].
  destruct (pend_ok T pm tr Pk) as (o & e & Er & Ee & S & Hb & Ht & Hp & _). exists e. rewrite <- Hm, lookup_nil in Hv.
  unfold tend in *. cbn [stk buf ity] in *. inversion S as [? it I Eo E4 E5|]; subst.
  destruct (irel_value _ _ _ _ I) as (z & Ez & Sz). cbn [fst] in Sz. rewrite Hv in Sz. destruct Sz as [N Sz].
  unfold piter_dec. rewrite <- E5, Ht, Hb, Ez. cbn [bind]. rewrite (irel_size _ _ _ _ I). cbn [bind].
  replace (z =? null_value T) with false by (symmetry; apply Z.eqb_neq; exact N).
  eexists. split; [exact Ee|]. split; [reflexivity|]. unfold piter_deref, piter_eqb. cbn [pvs pcur pbuf pty]. rewrite Hp, Sz, Ht. split; reflexivity.
Qed.
End BACK.

(** The hypotheses hold: "x", "xa", "xb", "xbc", "y" and "ya" packed *)
Definition ex_pback : list (top Z) := [Insert [120] 1; Insert [120; 97] 2; Insert [120; 98] 3; Insert [120; 98; 99] 4; Insert [121] 5; Insert [121; 97] 6].
Example C65_back_over_prefix_ex : exists m, made T0 (packed_of ex_pback) m /\ m [120] = Some 1 /\ m ([120] ++ 98 :: []) = Some 3 /\
  (exists d s, m (([120] ++ 98 :: []) ++ d :: s) <> None) /\
  (forall q q', [120] ++ 98 :: [] = q ++ q' -> q' <> [] -> (length [120] < length q)%nat -> m q = None).
Proof.
  destruct (C19_total ex_pback) as [m H]. exists m. destruct (calls_show _ _ H) as [_ Hm]. split; [mk_made|].
  split; [ex_look Hm|]. split; [ex_look Hm|]. split; [exists 99, []; ex_look Hm|].
  intros q q' E N L. exfalso. apply (f_equal (@length Z)) in E. rewrite !app_length in E. destruct q'; [congruence|]. cbn in E, L. lia.
Qed.
Example C65_back_to_left_ex : exists m x2 x, made T0 (packed_of ex_pback) m /\ m (121 :: []) = Some 5 /\ (exists e s, m ((121 :: []) ++ e :: s) <> None) /\
  m (120 :: [98; 99]) = Some 4 /\ pfind T0 (packed_of ex_pback) [121] = Ok x2 /\ piter_dec T0 (packed_of ex_pback) x2 = Ok x /\
  piter_deref (packed_of ex_pback) x = Ok ([120; 98; 99], 4).
Proof.
  destruct (C19_total ex_pback) as [m H]. destruct (calls_show _ _ H) as [_ Hm]. eexists m, _, _. split; [mk_made|].
  split; [ex_look Hm|]. split; [exists 97, []; ex_look Hm|]. split; [ex_look Hm|]. split; [vm_compute; reflexivity|]. split; vm_compute; reflexivity.
Qed.
Example C65_back_from_end_stored_ex : exists m, made T0 (packed_of ex_with_empty) m /\ m [] = Some 1.
Proof. destruct (C19_total ex_with_empty) as [m H]. destruct (calls_show _ _ H) as [_ Hm]. exists m. split; [mk_made|ex_look Hm]. Qed.

(** Where neither exists -- reads the record of the root as if it were one of its children: from "x",
    the only key besides "xa", it shows an entry that is not stored *)
Definition ex_first : list (top Z) := [Insert [120] 1; Insert [120; 97] 2].
Theorem C65_back_first_refuted : exists m x y, made T0 (packed_of ex_first) m /\ m [120] = Some 1 /\ m [-1; -1; 97] = None /\
  pfind T0 (packed_of ex_first) [120] = Ok x /\ piter_dec T0 (packed_of ex_first) x = Ok y /\
  piter_deref (packed_of ex_first) y = Ok ([-1; -1; 97], 2).
Proof.
  destruct (C19_total ex_first) as [m H]. destruct (calls_show _ _ H) as [_ Hm]. eexists m, _, _. split; [mk_made|].
  split; [ex_look Hm|]. split; [ex_look Hm|]. repeat (split; [vm_compute; reflexivity|]). vm_compute; reflexivity.
Qed.

(** One query for all the theorems of this file. *)
Definition PackProps2_theorems :=
  (@C65_back_over_prefix, @C65_back_to_left, @C65_back_from_end_stored, @C65_back_first_refuted).
Print Assumptions PackProps2_theorems.
