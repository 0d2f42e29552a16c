(** Iterators over the packed buffer move like iterators over the tree it
    represents. *)
From Coq Require Import List ZArith Lia Bool Arith.
From Verif Require Import Base TrieModel TrieSpec TrieProofs TrieProofs2 TrieProofs3 PackModel PackSpec PackProofs.
Import ListNotations.
Open Scope Z_scope.

Section SIM.
Context {V : Type}.
Variable T : ptraits.
Hypothesis HT : pt_ok T.
Local Notation tnode := (tnode V).
Local Notation stack := (list (TrieModel.tnode V * nat)).
Variable m : pmap V.
Local Notation b := (pk m).
Local Notation s := (store m).

Definition irel (x : tnode * nat) (it : pitem) : Prop :=
  exists lo, (1 <= lo)%nat /\ rep T b s lo (node_pos it) (fst x) /\ (snd x <= length (nch (fst x)))%nat /\
    child_pos it = (node_pos it + 2 + 2 * snd x)%nat /\
    child_end it = (node_pos it + 2 + 2 * length (nch (fst x)))%nat.
Inductive srel (o0 : nat) : stack -> list pitem -> Prop :=
| SR1 x it : irel x it -> node_pos it = o0 -> srel o0 [x] [it]
| SR2 x y it ip st pst : irel x it -> (snd y < length (nch (fst y)))%nat ->
    srel o0 (y :: st) (ip :: pst) -> srel o0 (x :: y :: st) (it :: ip :: pst).

Lemma srel_head o0 x st it pst : srel o0 (x :: st) (it :: pst) -> irel x it.
Proof. intros H; inversion H; auto. Qed.
Lemma srel_shape o0 st pst : srel o0 st pst -> exists x st' it pst', st = x :: st' /\ pst = it :: pst' /\ irel x it.
Proof. intros H; inversion H; subst; eauto 10. Qed.
Lemma srel_retop o0 x x' it it' st pst : srel o0 (x :: st) (it :: pst) -> irel x' it' -> node_pos it' = node_pos it ->
  srel o0 (x' :: st) (it' :: pst).
Proof. intros H I E; inversion H; subst; constructor; auto. Qed.

Lemma rd_some p z : nth_error b p = Some z -> rd b p = Ok z.
Proof. unfold rd. intros ->. reflexivity. Qed.
Lemma back_ok p o : (o <= p)%nat -> back p (Z.of_nat (p - o)) = Ok o.
Proof.
  intros. unfold back. replace ((0 <=? Z.of_nat (p - o)) && (Z.of_nat (p - o) <=? Z.of_nat p)) with true
    by (symmetry; apply andb_true_iff; split; apply Z.leb_le; lia). f_equal. lia.
Qed.
Lemma fwd_ok p k : (p + k <= length b)%nat -> fwd b p (Z.of_nat k) = Ok (p + k)%nat.
Proof.
  intros. unfold fwd. replace ((0 <=? Z.of_nat k) && (Z.of_nat p + Z.of_nat k <=? Z.of_nat (length b))) with true
    by (symmetry; apply andb_true_iff; split; apply Z.leb_le; lia). f_equal. lia.
Qed.

Lemma irel_value x it : irel x it -> exists z, rd b (node_pos it) = Ok z /\ slot_ok T s z (nval (fst x)).
Proof.
  intros (lo & _ & R & _). destruct (rep_head _ _ _ _ _ _ R) as (z & E & S & _). exists z. split; auto. apply rd_some; auto.
Qed.
Lemma irel_size x it : irel x it -> rd b (node_pos it + 1) = Ok (Z.of_nat (2 * length (nch (fst x)))).
Proof. intros (lo & _ & R & _). destruct (rep_head _ _ _ _ _ _ R) as (z & _ & _ & E). apply rd_some; auto. Qed.
Lemma slot_null z v : slot_ok T s z v -> (z =? null_value T) = match v with Some _ => false | None => true end.
Proof. destruct v; cbn; [intros [H _]; apply Z.eqb_neq; auto|intros ->; apply Z.eqb_refl]. Qed.

Lemma open_ok lo p n : (1 <= lo)%nat -> rep T b s lo p n ->
  exists it, open_node b p = Ok it /\ irel (n, O) it /\ node_pos it = p /\ child_end it = (p + 2 + 2 * length (nch n))%nat.
Proof.
  intros Hl R. unfold open_node. destruct (rep_head _ _ _ _ _ _ R) as (z & _ & _ & E). rewrite (rd_some _ _ E). cbn [bind].
  pose proof (rep_len _ _ _ _ _ _ R) as L. unfold cells in L. rewrite fwd_ok by lia. cbn [bind].
  eexists; split; [reflexivity|]. cbn [node_pos child_end]. split; [|split; [auto|lia]]. exists lo. cbn [fst snd node_pos child_pos child_end].
  split; auto. split; auto. split; [lia|]. split; lia.
Qed.

Lemma child_ok x it c sub : irel x it -> nth_error (nch (fst x)) (snd x) = Some (c, sub) ->
  exists lo o, (1 <= lo)%nat /\ rep T b s lo o sub /\ rd b (child_pos it) = Ok (wrap T c) /\ cast_unit T (wrap T c) = c /\
    rd b (child_pos it + 1) = Ok (Z.of_nat (node_pos it - o)) /\ back (node_pos it) (Z.of_nat (node_pos it - o)) = Ok o.
Proof.
  intros (lo & L & R & _ & Ec & _) E. destruct (rep_child _ _ _ _ _ _ _ _ _ R E) as (lo' & o & U & C1 & C2 & Ho & R' & L').
  exists lo', o. split; [lia|]. split; auto. rewrite Ec. split; [apply rd_some; auto|]. split; [apply cast_wrap; auto|].
  split; [|apply back_ok; lia]. apply rd_some. rewrite <- C2. f_equal. lia.
Qed.

Lemma push_child_ok o0 x st it pst bf c sub : srel o0 (x :: st) (it :: pst) ->
  nth_error (nch (fst x)) (snd x) = Some (c, sub) ->
  exists it', push_child T b (it :: pst) bf (child_pos it) = Ok (it' :: it :: pst, bf ++ [c]) /\
    srel o0 ((sub, O) :: x :: st) (it' :: it :: pst).
Proof.
  intros H E. pose proof (srel_head _ _ _ _ _ H) as I. destruct (child_ok _ _ _ _ I E) as (lo & o & L & R & E1 & E2 & E3 & E4).
  destruct (open_ok _ _ _ L R) as (it' & E5 & I' & _ & _). unfold push_child.
  rewrite E1. cbn [bind]. rewrite E3. cbn [bind]. rewrite E4. cbn [bind]. rewrite E5. cbn [bind]. rewrite E2.
  exists it'. split; auto. constructor; auto. apply nth_error_Some. congruence.
Qed.

(** going down to the first value *)
Lemma pdescend_first_ok o0 n : forall f st pst bf st' bf', srel o0 ((n, O) :: st) pst ->
  descend_first n ((n, O) :: st) bf = Ok (st', bf') -> (node_count n <= f)%nat ->
  exists pst' z n' st'' a, pdescend_first T f b pst bf = Ok (pst', bf', z) /\ srel o0 st' pst' /\
    st' = (n', O) :: st'' /\ nval n' = Some a /\ slot_ok T s z (Some a).
Proof.
  induction n as [v cs IH] using tnode_ind2. intros f st pst bf st' bf' H E Hf.
  destruct f as [|f]; [rewrite node_count_eq in Hf; lia|].
  destruct (srel_shape _ _ _ H) as (x & st0 & it & pst0 & Ex & -> & I). injection Ex as <- <-.
  cbn [pdescend_first]. destruct (irel_value _ _ I) as (z & Ez & Sz). rewrite Ez. cbn [bind]. rewrite (slot_null _ _ Sz).
  cbn [fst nval] in *. destruct v as [a|].
  - cbn in E. injection E as <- <-. exists (it :: pst0), z, (TN (Some a) cs), st, a. auto.
  - destruct cs as [|[c sub] cs]; [discriminate|]. cbn [descend_first] in E.
    destruct (push_child_ok _ _ _ _ _ bf c sub H) as (it' & Ep & H'); [reflexivity|]. rewrite Ep. cbn [bind].
    inversion IH as [|? ? I1 _]; subst. apply (I1 f _ _ _ _ _ H' E). cbn [snd].
    rewrite node_count_eq in Hf. cbn in Hf. lia.
Qed.

(** operator++ *)
Lemma pgo_up_ok o0 : forall st pst x it bf, srel o0 (x :: st) (it :: pst) ->
  match go_up x st bf with
  | inl (st', bf') => exists pst', pgo_up T b it pst bf = Ok (inl (pst', bf')) /\ srel o0 st' pst'
  | inr (cur, st', bf') => exists pst', pgo_up T b it pst bf = Ok (inr (pst', bf')) /\ srel o0 st' pst' /\
      exists st'', st' = (cur, O) :: st''
  end.
Proof.
  induction st as [|[p i] st IH]; intros pst x it bf H.
  - cbn [go_up]. inversion H; subst. cbn [pgo_up]. eauto.
  - inversion H as [|? ? ? ip ? pst0 I Hy H']; subst. cbn [go_up pgo_up].
    pose proof (srel_head _ _ _ _ _ H') as Ip. destruct Ip as (lo & L & R & Hi & Ec & Ee). cbn [fst snd] in *.
    assert (I' : irel (p, S i) (PIt (node_pos ip) (child_pos ip + 2) (child_end ip))).
    { exists lo. cbn [fst snd node_pos child_pos child_end]. split; auto. split; auto. split; [lia|]. split; [lia|auto]. }
    assert (H1 : srel o0 ((p, S i) :: st) (PIt (node_pos ip) (child_pos ip + 2) (child_end ip) :: pst0)).
    { eapply srel_retop; eauto. }
    cbn [child_pos child_end]. destruct (nth_error (nch p) (S i)) as [[c sub]|] eqn:E.
    + assert (S i < length (nch p))%nat by (apply nth_error_Some; congruence).
      replace (child_pos ip + 2 =? child_end ip)%nat with false by (symmetry; apply Nat.eqb_neq; lia).
      destruct (push_child_ok _ _ _ _ _ (removelast bf) c sub H1 E) as (it' & Ep & H2). cbn [child_pos] in Ep. rewrite Ep. cbn [bind].
      eexists. split; [reflexivity|]. split; eauto.
    + apply nth_error_None in E. replace (child_pos ip + 2 =? child_end ip)%nat with true by (symmetry; apply Nat.eqb_eq; lia).
      apply (IH _ _ _ _ H1).
Qed.

Lemma pinc_loop_ok o0 : forall f f' st pst bf cur i st0 r, srel o0 st pst -> st = (cur, i) :: st0 ->
  (nch cur <> [] -> i = O) ->
  inc_loop f cur st bf = Ok r -> (f <= f')%nat ->
  match r with
  | inl (st', bf') => exists pst', pinc_loop T f' b (Z.of_nat (2 * length (nch cur))) pst bf = Ok (inl (pst', bf')) /\ srel o0 st' pst'
  | inr (n', st', bf') => exists pst' z st'', pinc_loop T f' b (Z.of_nat (2 * length (nch cur))) pst bf = Ok (inr (pst', bf', z)) /\
      srel o0 st' pst' /\ st' = (n', O) :: st'' /\ slot_ok T s z (nval n') /\ nval n' <> None
  end.
Proof.
  induction f as [|f IH]; intros f' st pst bf cur i st0 r H -> Hi E Hf; [discriminate|].
  destruct f' as [|f']; [lia|]. cbn [inc_loop] in E. cbn [pinc_loop].
  destruct (srel_shape _ _ _ H) as (x & st1 & it & pst1 & Ex & -> & I). injection Ex as <- <-.
  assert (K : forall cur' st' bf' pst' st'', srel o0 st' pst' -> st' = (cur', O) :: st'' ->
     (if has_value cur' then Ok (inr (cur', st', bf')) else inc_loop f cur' st' bf') = Ok r ->
     match r with
     | inl (st', bf'') => exists pst'', match pst' with
              | [] => Undef
              | si :: _ =>
                  let* v := rd b (node_pos si) in
                  let* n := rd b (node_pos si + 1) in
                  if v =? null_value T then pinc_loop T f' b n pst' bf'
                  else Ok (inr (pst', bf', v))
              end = Ok (inl (pst'', bf'')) /\ srel o0 st' pst''
     | inr (n', st', bf'') => exists pst'' z st'', match pst' with
              | [] => Undef
              | si :: _ =>
                  let* v := rd b (node_pos si) in
                  let* n := rd b (node_pos si + 1) in
                  if v =? null_value T then pinc_loop T f' b n pst' bf'
                  else Ok (inr (pst', bf', v))
              end = Ok (inr (pst'', bf'', z)) /\
         srel o0 st' pst'' /\ st' = (n', O) :: st'' /\ slot_ok T s z (nval n') /\ nval n' <> None
     end).
  { intros cur' st' bf' pst' st'' H' -> E'. destruct (srel_shape _ _ _ H') as (x & st2 & it' & pst2 & Ex & -> & I'). injection Ex as <- <-.
    destruct (irel_value _ _ I') as (z & Ez & Sz). rewrite Ez. cbn [bind]. rewrite (irel_size _ _ I'). cbn [bind fst] in *.
    rewrite (slot_null _ _ Sz). unfold has_value in E'. destruct (nval cur') as [a|] eqn:Ea.
    - injection E' as <-. eexists _, z, st''. split; [reflexivity|]. split; auto. split; auto. rewrite Ea. split; [exact Sz|congruence].
    - apply (IH f' _ _ _ _ O st'' _ H' eq_refl); auto. lia. }
  destruct (nch cur) as [|[c sub] cs] eqn:Ec.
  - cbn [length Nat.mul Z.of_nat Z.eqb]. pose proof (pgo_up_ok o0 _ _ _ _ bf H) as G.
    destruct (go_up (cur, i) st0 bf) as [[st' bf']|[[cur' st'] bf']].
    + injection E as <-. destruct G as (pst' & G & H'). rewrite G. cbn [bind]. exists pst'; auto.
    + destruct G as (pst' & G & H' & st'' & E'). rewrite G. cbn [bind]. apply (K cur' st' bf' pst' st''); auto.
  - replace (Z.of_nat (2 * length ((c, sub) :: cs)) =? 0) with false by (symmetry; apply Z.eqb_neq; cbn [length]; lia).
    assert (i = O) by (apply Hi; congruence). subst i.
    destruct (push_child_ok _ _ _ _ _ bf c sub H) as (it' & Ep & H'); [cbn; rewrite Ec; reflexivity|].
    rewrite Ep. cbn [bind]. apply (K sub _ (bf ++ [c]) (it' :: it :: pst1) ((cur, O) :: st0) H' eq_refl). exact E.
Qed.

Definition isim (o0 : nat) (x : iter V) (px : piter) : Prop :=
  srel o0 (stk x) (pstk px) /\ pbuf px = buf x /\ pty px = ity x /\ pvs px = true /\
  (ity x = T_normal -> exists v, cval x = Some v /\ nthZ s (pcur px) = Some v).

(** the bottom of the stack is the node [n] *)
Lemma canon_bottom (n : tnode) st bf : canon n st bf -> exists i pre, st = pre ++ [(n, i)].
Proof.
  induction 1 as [i|q i p j rest s' c H IH E]; [exists i, []; reflexivity|].
  destruct IH as (k & pre & ->). exists k, ((q, i) :: pre). reflexivity.
Qed.
Lemma srel_fuel o0 (n : tnode) st pst bf : canon n st bf -> srel o0 st pst -> (S (node_count n) <= length b)%nat.
Proof.
  intros C H. destruct (canon_bottom _ _ _ C) as (i & pre & ->). clear C.
  remember (pre ++ [(n, i)]) as st eqn:E. revert pre E. induction H as [x it I _|x y it ip st pst I Hy H IH]; intros pre E.
  - destruct pre as [|? [|]]; try discriminate. injection E as ->. destruct I as (lo & L & R & _). cbn [fst] in R.
    pose proof (count_cells _ _ _ _ _ _ R). apply rep_len in R. unfold cells in R. lia.
  - destruct pre as [|? pre]; [discriminate|]. injection E as _ E. eauto.
Qed.

Lemma pinc_ok o0 n b0 k v R x px : pos n b0 k v R x -> isim o0 x px -> forall x', iter_inc x = Ok x' ->
  exists px', piter_inc T m px = Ok px' /\ isim o0 x' px'.
Proof.
  intros (q & rest & C & Hv & -> & _) (H & Hb & Ht & Hp & _) x' E. cbn [stk buf ity cval] in *.
  unfold iter_inc in E. cbn [stk buf ity ckey cval] in E. rewrite (canon_fuel _ _ _ C) in E.
  destruct (inc_loop (S (node_count n)) q ((q, O) :: rest) (b0 ++ k)) as [r| |] eqn:Er; try discriminate. cbn [bind] in E.
  destruct (srel_shape _ _ _ H) as (y & st1 & it & pst1 & Ex & Ep & I). injection Ex as <- <-.
  pose proof (pinc_loop_ok o0 _ (length b) _ _ _ _ _ _ _ H eq_refl (fun _ => eq_refl) Er (srel_fuel _ _ _ _ _ C H)) as G.
  unfold piter_inc. rewrite Ep in *. rewrite (irel_size _ _ I). cbn [bind fst]. rewrite Hb.
  destruct r as [[st' bf']|[[n' st'] bf']].
  - injection E as <-. destruct G as (pst' & G & H'). rewrite G. cbn [bind]. eexists; split; [reflexivity|].
    repeat split; cbn; auto. discriminate.
  - injection E as <-. destruct G as (pst' & z & st'' & G & H' & _ & Sz & Hn). rewrite G. cbn [bind]. eexists; split; [reflexivity|].
    repeat split; cbn; auto. intros _. destruct (nval n') as [a|]; [|congruence]. exists a. split; auto. apply Sz.
Qed.

(** end iterators *)
Lemma end_eqb o0 n b0 b1 x y px py : at_end n b0 x -> at_end n b1 y -> isim o0 x px -> isim o0 y py -> piter_eqb px py = Ok true.
Proof.
  intros (E1 & E2 & E3) (F1 & F2 & F3) (H1 & _ & H2 & H3 & _) (I1 & _ & I2 & I3 & _).
  unfold piter_eqb. rewrite H2, I2, E3, F3, H3, I3. rewrite E1 in H1. rewrite F1 in I1.
  inversion H1 as [? it (lo & _ & R & _ & Ec & Ee) Eo|]; subst. inversion I1 as [? it' (lo' & _ & R' & _ & Ec' & Ee') Eo'|]; subst.
  cbn [fst snd] in *. unfold pitem_eqb. rewrite Ec, Ee, Ec', Ee', Eo', !Nat.eqb_refl. reflexivity.
Qed.
Lemma normal_end_eqb o0 n b0 x y px py : ity x = T_normal -> at_end n b0 y -> isim o0 x px -> isim o0 y py -> piter_eqb px py = Ok false.
Proof.
  intros E (_ & _ & F) (_ & _ & H2 & _) (_ & _ & I2 & _). unfold piter_eqb. rewrite H2, I2, E, F. reflexivity.
Qed.
Lemma pderef_ok o0 n b0 k v R x px : pos n b0 k v R x -> isim o0 x px -> piter_deref m px = Ok (b0 ++ k, v).
Proof.
  intros (q & rest & C & Hv & -> & _) (_ & Hb & _ & Hp & Hc). unfold piter_deref. rewrite Hp, Hb.
  destruct (Hc eq_refl) as (w & Ew & E). cbn [cval buf] in *. injection Ew as <-. rewrite E. reflexivity.
Qed.

Lemma pwalk_ok o0 (n : tnode) b0 k v R x y px py : wf n -> pos n b0 k v R x -> at_end n b0 y -> isim o0 x px -> isim o0 y py ->
  forall f, (length R + 2 <= f)%nat -> pwalk T f m px py = Ok (tagged b0 ((k, v) :: R)).
Proof.
  intros Hw. revert k v x px. induction R as [|[k' v'] R IH]; intros k v x px P Y SX SY f Hf.
  - destruct (inc_spec _ _ _ _ _ _ Hw P) as (x' & E & X'). destruct (pinc_ok _ _ _ _ _ _ _ _ P SX _ E) as (px' & Ep & SX').
    destruct f as [|[|f]]; cbn in Hf; try lia. cbn [pwalk].
    assert (Hn : ity x = T_normal) by (destruct P as (? & ? & _ & _ & -> & _); reflexivity).
    rewrite (normal_end_eqb _ _ _ _ _ _ _ Hn Y SX SY). cbn [bind]. rewrite (pderef_ok _ _ _ _ _ _ _ _ P SX). cbn [bind]. rewrite Ep. cbn [bind].
    rewrite (end_eqb _ _ _ _ _ _ _ _ X' Y SX' SY). reflexivity.
  - destruct (inc_spec _ _ _ _ _ _ Hw P) as (x' & E & X'). destruct (pinc_ok _ _ _ _ _ _ _ _ P SX _ E) as (px' & Ep & SX').
    destruct f as [|f]; cbn in Hf; try lia. cbn [pwalk].
    assert (Hn : ity x = T_normal) by (destruct P as (? & ? & _ & _ & -> & _); reflexivity).
    rewrite (normal_end_eqb _ _ _ _ _ _ _ Hn Y SX SY). cbn [bind]. rewrite (pderef_ok _ _ _ _ _ _ _ _ P SX). cbn [bind]. rewrite Ep. cbn [bind].
    rewrite (IH _ _ _ _ X' Y SX' SY f) by lia. reflexivity.
Qed.

(** operator-- *)
Lemma pdescend_prev_ok o0 sub : forall f p j rest it prest bf c, srel o0 ((p, S j) :: rest) (it :: prest) ->
  nth_error (nch p) j = Some (c, sub) -> (node_count sub <= f)%nat ->
  exists pst, pdescend_prev T f b (it :: prest) bf = Ok (pst, snd (descend_last sub ((p, j) :: rest) (bf ++ [c]))) /\
    srel o0 (snd (fst (descend_last sub ((p, j) :: rest) (bf ++ [c])))) pst /\
    exists i st', snd (fst (descend_last sub ((p, j) :: rest) (bf ++ [c]))) =
      (fst (fst (descend_last sub ((p, j) :: rest) (bf ++ [c]))), i) :: st'.
Proof.
  induction sub as [v cs IH] using tnode_ind2. intros f p j rest it prest bf c H E Hf.
  destruct f as [|f]; [rewrite node_count_eq in Hf; lia|]. cbn [pdescend_prev].
  pose proof (srel_head _ _ _ _ _ H) as (lo & L & R & Hi & Ec & Ee). cbn [fst snd] in *.
  assert (Eb : back (child_pos it) 2 = Ok (node_pos it + 2 + 2 * j)%nat).
  { change 2 with (Z.of_nat 2) at 1. replace 2%nat with (child_pos it - (node_pos it + 2 + 2 * j))%nat at 1 by lia. apply back_ok. lia. }
  rewrite Eb. cbn [bind].
  assert (I1 : irel (p, j) (PIt (node_pos it) (node_pos it + 2 + 2 * j) (child_end it))).
  { exists lo. cbn [fst snd node_pos child_pos child_end]. split; auto. split; auto. split; [lia|]. split; auto. }
  destruct (child_ok _ _ c (TN v cs) I1 E) as (lo' & o & L' & R' & E1 & E2 & E3 & E4). cbn [node_pos child_pos] in *.
  rewrite E3. cbn [bind]. rewrite E1. cbn [bind]. rewrite E4. cbn [bind].
  destruct (rep_head _ _ _ _ _ _ R') as (z & _ & _ & En). cbn [nch] in En. rewrite (rd_some _ _ En). cbn [bind].
  pose proof (rep_len _ _ _ _ _ _ R') as Ln. unfold cells in Ln. cbn [nch] in Ln. rewrite fwd_ok by lia. cbn [bind]. rewrite E2.
  assert (H1 : srel o0 ((p, j) :: rest) (PIt (node_pos it) (node_pos it + 2 + 2 * j) (child_end it) :: prest)).
  { eapply srel_retop; eauto. }
  assert (Hj : (j < length (nch p))%nat) by (apply nth_error_Some; congruence).
  assert (H2 : srel o0 ((TN v cs, length cs) :: (p, j) :: rest)
     (PIt o (o + 2 + 2 * length cs) (o + 2 + 2 * length cs) :: PIt (node_pos it) (node_pos it + 2 + 2 * j) (child_end it) :: prest)).
  { constructor; auto. exists lo'. cbn [fst snd node_pos child_pos child_end nch]. auto. }
  destruct cs as [|x0 cs0] eqn:Ecs.
  - cbn [length Nat.mul Z.of_nat Z.eqb]. cbn [descend_last fst snd]. eexists. split; [reflexivity|]. split; [exact H2|]. eauto.
  - rewrite <- Ecs in *. assert (Hne : cs <> []) by (subst; discriminate). clear Ecs x0 cs0.
    destruct (exists_last Hne) as (cs' & [d n'] & ->).
    assert (Hgo : forall rest bf, descend_last (TN v (cs' ++ [(d, n')])) rest bf =
                  descend_last n' ((TN v (cs' ++ [(d, n')]), length cs') :: rest) (bf ++ [d])).
    { clear. intros rest bf. cbn [descend_last]. set (n0 := TN v (cs' ++ [(d, n')])). clearbody n0.
      assert (G : forall k, (fix go (l : list (Z * tnode)) (k : nat) {struct l} : tnode * stack * list Z :=
          match l with
          | [] => (n0, (n0, 0%nat) :: rest, bf)
          | [(c, sub)] => descend_last sub ((n0, k) :: rest) (bf ++ [c])
          | (c, sub) :: (_ :: _) as l' => go l' (S k)
          end) (cs' ++ [(d, n')]) k = descend_last n' ((n0, (length cs' + k)%nat) :: rest) (bf ++ [d])).
      { induction cs' as [|[e g] cs' IH]; intros k; [reflexivity|].
        cbn [app length]. replace (S (length cs') + k)%nat with (length cs' + S k)%nat by lia. rewrite <- IH.
        destruct (cs' ++ [(d, n')]) eqn:E; [destruct cs'; discriminate|]. reflexivity. }
      specialize (G O). rewrite Nat.add_0_r in G. exact G. }
    rewrite Hgo. rewrite app_length in *. cbn [length] in *.
    replace (Z.of_nat (2 * (length cs' + 1)) =? 0) with false by (symmetry; apply Z.eqb_neq; lia).
    rewrite Nat.add_1_r in *.
    apply Forall_app in IH as [_ IH]. inversion IH as [|? ? F1 _]; subst. cbn [snd] in F1.
    apply (F1 f _ _ _ _ _ (bf ++ [c]) d H2).
    + cbn [nch]. rewrite nth_error_app2, Nat.sub_diag by lia. reflexivity.
    + assert (node_count n' < node_count (TN v (cs' ++ [(d, n')])))%nat; [|lia].
      apply (node_count_child (TN v (cs' ++ [(d, n')])) (length cs') d n').
      cbn [nch]. rewrite nth_error_app2, Nat.sub_diag by lia. reflexivity.
Qed.
End SIM.
