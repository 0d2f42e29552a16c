(** The copy constructor of a packed map. *)
From Coq Require Import List ZArith Lia Bool Arith.
From Verif Require Import Base TrieModel TrieSpec TrieProofs TrieProofs2 TrieProofs3 PackModel PackSpec PackProofs PackSim.
Import ListNotations.
Open Scope Z_scope.

Lemma set_nth_same {A} i (a : A) l : (i < length l)%nat -> nth_error (set_nth i a l) i = Some a.
Proof. revert i; induction l as [|x l IH]; intros [|i] H; cbn in *; try lia; auto. apply IH. lia. Qed.
Lemma set_nth_other {A} i j (a : A) l : i <> j -> nth_error (set_nth i a l) j = nth_error l j.
Proof. revert i j; induction l as [|x l IH]; intros [|i] [|j] H; cbn; auto; try congruence; apply IH; lia. Qed.
Lemma set_nth_Forall {A} (P : A -> Prop) i a l : P a -> Forall P l -> Forall P (set_nth i a l).
Proof. intros Pa H. revert i; induction H; intros [|i]; cbn; constructor; auto. Qed.

Section COPY.
Context {V : Type}.
Variable T : ptraits.
Hypothesis HT : pt_ok T.
Local Notation tnode := (tnode V).
Variable other : pmap V.
Local Notation so := (store other).

Lemma reps_frame b (s : list V) b' (s' : list V) off l : (forall z v, slot_ok T s z v -> slot_ok T s' z v) -> (length b <= length b')%nat ->
  forall lo i, reps T b s off lo i l ->
  (forall p, (lo <= p < off)%nat -> nth_error b' p = nth_error b p) ->
  (forall p, (off + 2 + 2 * i <= p < off + 2 + 2 * (i + length l))%nat -> nth_error b' p = nth_error b p) ->
  reps T b' s' off lo i l.
Proof.
  intros Hs Hl. induction l as [|[c sub] l IH]; intros lo i H Hk Hc.
  - apply reps_nil_inv in H. subst. constructor.
  - apply reps_cons_inv in H as (o & U & C1 & C2 & Ho & R1 & R2).
    pose proof (reps_lo _ _ _ _ _ _ _ R2) as L2. pose proof (rep_lo _ _ _ _ _ _ R1) as L1. cbn [length] in *.
    econstructor; [auto|rewrite Hc by lia; auto|rewrite Hc by lia; eauto|auto| |].
    + eapply rep_frame; eauto. intros q Hq. apply Hk. lia.
    + apply IH; auto; intros q Hq; [apply Hk|apply Hc]; unfold cells in *; lia.
Qed.

Definition post (m m' : pmap V) (lo hi k : nat) : Prop :=
  length (pk m') = length (pk m) /\ (forall p, ~ (lo <= p < hi)%nat -> nth_error (pk m') p = nth_error (pk m) p) /\
  (exists y, store m' = store m ++ y /\ length y = k) /\ (Forall (in_range T) (pk m) -> Forall (in_range T) (pk m')).
Lemma post_refl m lo hi : post m m lo hi 0.
Proof. repeat split; auto. exists []. rewrite app_nil_r. auto. Qed.
Lemma post_trans m m1 m2 lo1 hi1 k1 lo2 hi2 k2 lo hi k : post m m1 lo1 hi1 k1 -> post m1 m2 lo2 hi2 k2 ->
  (lo <= lo1)%nat -> (lo <= lo2)%nat -> (hi1 <= hi)%nat -> (hi2 <= hi)%nat -> k = (k1 + k2)%nat -> post m m2 lo hi k.
Proof.
  intros (A1 & A2 & (y & A3 & A4) & A5) (B1 & B2 & (y' & B3 & B4) & B5) H1 H2 H3 H4 ->. repeat split; auto; [congruence| |].
  - intros p Hp. rewrite B2, A2; auto; lia.
  - exists (y ++ y'). rewrite B3, A3, app_assoc, app_length. split; auto.
Qed.
Lemma post_weaken m m' lo1 hi1 k1 lo hi k : post m m' lo1 hi1 k1 -> (lo <= lo1)%nat -> (hi1 <= hi)%nat -> k = k1 -> post m m' lo hi k.
Proof.
  intros (A1 & A2 & A3 & A4) H1 H2 ->. split; auto. split; auto. intros p Hp. apply A2. lia.
Qed.
Lemma post_store m m' lo hi k : post m m' lo hi k -> length (store m') = (length (store m) + k)%nat.
Proof. intros (_ & _ & (y & -> & <-) & _). apply app_length. Qed.
Lemma post_slot m m' lo hi k z v : post m m' lo hi k -> slot_ok T (store m) z v -> slot_ok T (store m') z v.
Proof. intros (_ & _ & (y & -> & _) & _). apply slot_mono. Qed.

Definition nvals (n : tnode) : nat := match nval n with Some _ => 1%nat | None => O end.

Lemma handler_ok m lo o n : rep T (pk m) so lo o n -> Z.of_nat (length (store m) + nvals n) < null_value T ->
  exists m' z, copy_handler T other o m = Ok m' /\ post m m' o (S o) (nvals n) /\
    nth_error (pk m') o = Some z /\ slot_ok T (store m') z (nval n).
Proof.
  intros R Hs. destruct (rep_head _ _ _ _ _ _ R) as (z & E & S & _). unfold copy_handler. rewrite (rd_some m _ _ E). cbn [bind].
  pose proof (rep_len _ _ _ _ _ _ R) as L. unfold cells in L.
  rewrite (slot_null T other _ _ S). unfold nvals in *. destruct (nval n) as [a|].
  - destruct S as [S1 S2]. rewrite S2. cbn [deref bind]. eexists _, _. split; [reflexivity|]. cbn [pk store].
    split; [|split; [apply set_nth_same; lia|]].
    + split; [apply set_nth_length|]. split; [intros p Hp; apply set_nth_other; lia|]. split; [exists [a]; auto|].
      intros F. apply set_nth_Forall; auto. apply wrap_range.
    + rewrite wrap_small by (unfold null_value in Hs; lia). split; [lia|apply nthZ_snoc].
  - exists m, z. split; auto. split; [apply post_refl|]. auto.
Qed.

Definition resume (F : nat) (rest : list pitem) (m : pmap V) : res (pmap V) :=
  let* r := copy_up rest in
  match r with
  | None => Ok m
  | Some (st'', cp') => copy_loop T F other st'' cp' m
  end.
Definition loopg (g F : nat) (st : list pitem) (cp : nat) (m : pmap V) : res (pmap V) :=
  let* (st', m') := copy_down T g other st cp m in resume F (tl st') m'.
Lemma copy_loop_S F st cp m : copy_loop T (S F) other st cp m = loopg (length (pk m)) F st cp m.
Proof. reflexivity. Qed.
Lemma loopg_S g F it st cp m : loopg (S g) F (it :: st) cp m =
  let* offset := rd (pk m) (cp + 1) in
  let* p := back (node_pos it) offset in
  let* n := rd (pk m) (p + 1) in
  let* m' := copy_handler T other p m in
  let* e := fwd (pk m') (p + 2) n in
  if n =? 0 then resume F (it :: st) m' else loopg g F (PIt p (p + 2) e :: it :: st) (p + 2) m'.
Proof.
  unfold loopg. cbn [copy_down]. destruct (rd (pk m) (cp + 1)) as [x| |]; auto. cbn [bind].
  destruct (back (node_pos it) x) as [p| |]; auto. cbn [bind]. destruct (rd (pk m) (p + 1)) as [n| |]; auto. cbn [bind].
  destruct (copy_handler T other p m) as [m'| |]; auto. cbn [bind]. destruct (fwd (pk m') (p + 2) n) as [e| |]; auto. cbn [bind].
  destruct (n =? 0); reflexivity.
Qed.

Fixpoint leaves (n : tnode) : nat :=
  match n with
  | TN _ [] => 1%nat
  | TN _ cs => (fix go l := match l with [] => O | (_, c) :: l' => (leaves c + go l')%nat end) cs
  end.
Definition kleaves (l : list (Z * tnode)) : nat := fold_right (fun p a => (leaves (snd p) + a)%nat) O l.
Lemma leaves_eq v cs : leaves (TN v cs) = match cs with [] => 1%nat | _ => kleaves cs end.
Proof.
  destruct cs as [|x cs]; auto.
  assert (H : forall l, (fix go l := match l with [] => O | (_, c) :: l' => (leaves c + go l')%nat end) l = kleaves l).
  { induction l as [|[c n] l IH]; cbn; auto. }
  exact (H (x :: cs)).
Qed.
Lemma leaves_pos n : (1 <= leaves n)%nat.
Proof.
  induction n as [v cs IH] using tnode_ind2. rewrite leaves_eq. destruct cs as [|[c n] cs]; auto.
  inversion IH; subst. cbn [kleaves fold_right snd] in *. lia.
Qed.
Lemma leaves_count n : (leaves n <= node_count n)%nat.
Proof.
  induction n as [v cs IH] using tnode_ind2. rewrite leaves_eq, node_count_eq. destruct cs as [|x cs]; [lia|].
  apply Nat.le_trans with (knodes (x :: cs)); [|lia]. generalize dependent (x :: cs). intros l IH.
  induction l as [|[c n] l IHl]; auto. inversion IH as [|? ? I1 I2]; subst. specialize (IHl I2). cbn [kleaves knodes fold_right snd] in *. fold (kleaves l) (knodes l) in *. lia.
Qed.

Definition visits (n : tnode) : Prop := forall g F it st cp m lo o,
  rep T (pk m) so lo o n -> (1 <= lo)%nat ->
  nth_error (pk m) (cp + 1) = Some (Z.of_nat (node_pos it - o)) -> (o < node_pos it)%nat ->
  (node_count n <= g)%nat -> Z.of_nat (length (store m) + count_values n) < null_value T ->
  exists m', loopg g (F + leaves n - 1) (it :: st) cp m = resume F (it :: st) m' /\
    post m m' lo (o + cells n) (count_values n) /\ rep T (pk m') (store m') lo o n.

Lemma visit_kids l : Forall (fun p => visits (snd p)) l -> l <> [] -> forall i g F off st m lo e,
  reps T (pk m) so off lo i l -> (1 <= lo)%nat -> (off + 2 + 2 * (i + length l) <= length (pk m))%nat ->
  e = (off + 2 + 2 * (i + length l))%nat ->
  (forall p, In p l -> (node_count (snd p) <= g /\ node_count (snd p) <= length (pk m))%nat) ->
  Z.of_nat (length (store m) + kvalues l) < null_value T ->
  exists m', loopg g (F + kleaves l - 1) (PIt off (off + 2 + 2 * i) e :: st) (off + 2 + 2 * i) m =
      resume F (PIt off (off + 2 * (i + length l)) e :: st) m' /\
    post m m' lo off (kvalues l) /\ reps T (pk m') (store m') off lo i l.
Proof.
  induction l as [|[c sub] l IH]; intros HV Hne i g F off st m lo e R L Hlen -> Hg Hs; [congruence|]. clear Hne.
  inversion HV as [|? ? V1 V2]; subst. cbn [snd] in V1. pose proof R as R0.
  apply reps_cons_inv in R as (o & U & C1 & C2 & Ho & R1 & R2). cbn [kvalues kleaves fold_right snd length] in *.
  fold (kvalues l) in *. fold (kleaves l) in *.
  pose proof (leaves_pos sub) as LP. pose proof (rep_lo _ _ _ _ _ _ R1) as L1. pose proof (reps_lo _ _ _ _ _ _ _ R2) as L2.
  destruct (V1 g (F + kleaves l)%nat (PIt off (off + 2 + 2 * i) (off + 2 + 2 * (i + S (length l)))) st (off + 2 + 2 * i)%nat m lo o R1 L)
    as (m1 & E1 & P1 & N1); auto.
  { cbn [node_pos]. rewrite <- C2. f_equal. lia. }
  { apply (Hg (c, sub)). left; auto. }
  { lia. }
  replace (F + (leaves sub + kleaves l) - 1)%nat with (F + kleaves l + leaves sub - 1)%nat by lia. rewrite E1. clear E1.
  pose proof P1 as (Pl & Pf & _ & _).
  destruct l as [|x l].
  - exists m1. cbn [kleaves kvalues fold_right length] in *. rewrite !Nat.add_0_r in *. split.
    { replace (off + 2 * (i + 1))%nat with (off + 2 + 2 * i)%nat by lia. reflexivity. }
    apply reps_nil_inv in R2. split; [rewrite <- R2; auto|].
    econstructor; [auto|rewrite Pf by lia; auto|rewrite Pf by lia; eauto|auto|auto|]. rewrite R2. constructor.
  - set (l' := x :: l) in *. assert (Hl' : l' <> []) by discriminate. clearbody l'.
    assert (0 < length l')%nat by (destruct l'; cbn; [congruence|lia]).
    assert (KL : (1 <= kleaves l')%nat).
    { destruct l' as [|[d n] l']; [congruence|]. pose proof (leaves_pos n). cbn [kleaves fold_right snd]. lia. }
    destruct (IH V2 Hl' (S i) (length (pk m1)) F off st m1 (o + cells sub)%nat (off + 2 + 2 * (i + S (length l')))%nat) as (m2 & E2 & P2 & N2).
    + eapply reps_frame; [| |exact R2| |]; [auto|lia| |]; intros p Hp; apply Pf; unfold cells in *; lia.
    + unfold cells. lia.
    + lia.
    + lia.
    + intros p Hp. rewrite Pl. split; apply (Hg p); right; auto.
    + rewrite (post_store _ _ _ _ _ P1). lia.
    + exists m2. split; [|split].
      * unfold resume at 1. cbn [copy_up node_pos child_pos child_end].
        replace (off + 2 + 2 * i + 2 =? off + 2 + 2 * (i + S (length l')))%nat with false by (symmetry; apply Nat.eqb_neq; lia).
        cbn [negb bind]. destruct (F + kleaves l')%nat as [|FF] eqn:EF; [lia|]. rewrite copy_loop_S.
        replace (S FF - 1)%nat with FF in E2 by lia.
        replace (off + 2 + 2 * i + 2)%nat with (off + 2 + 2 * S i)%nat by lia. rewrite E2. replace (off + 2 * (S i + length l'))%nat with (off + 2 * (i + S (length l')))%nat by lia. reflexivity.
      * eapply post_trans; eauto; unfold cells; lia.
      * pose proof P2 as (Pl2 & Pf2 & _ & _).
        econstructor; [auto| | |exact Ho| |exact N2].
        -- rewrite Pf2, Pf by lia. auto.
        -- rewrite Pf2, Pf by lia. auto.
        -- eapply rep_frame; [|exact N1| |]; [intros; eapply post_slot; eauto|lia|]. intros p Hp. apply Pf2. lia.
Qed.

Lemma visit n : visits n.
Proof.
  induction n as [v cs IH] using tnode_ind2. intros g F it st cp m lo o R L Ec Ho Hg Hs.
  rewrite node_count_eq in Hg. destruct g as [|g]; [lia|]. rewrite loopg_S. rewrite (rd_some m _ _ Ec). cbn [bind].
  rewrite back_ok by lia. cbn [bind]. pose proof R as R0. apply rep_inv in R as (z & C1 & C2 & C3 & C4 & R).
  rewrite (rd_some m _ _ C3). cbn [bind]. rewrite count_values_eq in Hs.
  pose proof (rep_lo _ _ _ _ _ _ R0) as L0. pose proof (count_cells _ _ _ _ _ _ R0) as CC. rewrite node_count_eq in CC.
  destruct (handler_ok m lo o (TN v cs) R0) as (m1 & z1 & E1 & P1 & Z1 & S1).
  { unfold nvals; cbn [nval]. destruct v; lia. }
  rewrite E1. cbn [bind]. pose proof P1 as (Pl & Pf & _ & _).
  rewrite fwd_ok by lia. cbn [bind]. cbn [nval] in *.
  destruct cs as [|x0 cs0] eqn:Ecs.
  - cbn [length Nat.mul Z.of_nat Z.eqb]. exists m1. rewrite leaves_eq. split; [rewrite Nat.add_sub; reflexivity|].
    rewrite count_values_eq. cbn [kvalues fold_right] in *. unfold nvals in P1. cbn [nval] in P1.
    apply reps_nil_inv in R. subst lo. split.
    + eapply post_weaken; [exact P1|..]; unfold cells; cbn [nch length]; try lia; destruct v; lia.
    + apply Rep with (z := z1); auto; [rewrite Pf by (cbn [length]; lia); auto|cbn [length]; lia|constructor].
  - rewrite <- Ecs in *. assert (Hne : cs <> []) by (subst; discriminate). clear Ecs x0 cs0.
    assert (0 < length cs)%nat by (destruct cs; cbn; [congruence|lia]).
    replace (Z.of_nat (2 * length cs) =? 0) with false by (symmetry; apply Z.eqb_neq; lia).
    destruct (visit_kids cs IH Hne O g F o (it :: st) m1 lo (o + 2 + 2 * length cs)%nat) as (m2 & E2 & P2 & N2).
    + eapply reps_frame; [| |exact R| |]; [auto|lia| |]; intros p Hp; apply Pf; lia.
    + auto.
    + cbn [Nat.add]. lia.
    + cbn [Nat.add]. lia.
    + intros [c sub] Hp. cbn [snd]. assert (node_count sub <= knodes cs)%nat; [|lia].
      clear -Hp. induction cs as [|[d n] cs IH]; [destruct Hp|]. cbn [knodes fold_right snd]. fold (knodes cs).
      destruct Hp as [E|Hp]; [injection E as -> ->; lia|]. specialize (IH Hp). lia.
    + rewrite (post_store _ _ _ _ _ P1). unfold nvals; cbn [nval]. destruct v; lia.
    + cbn [Nat.add] in E2. replace (o + 2 + 2 * 0)%nat with (o + 2)%nat in E2 by lia.
      exists m2. rewrite leaves_eq. replace (match cs with [] => 1%nat | _ => kleaves cs end) with (kleaves cs) by (destruct cs; congruence).
      rewrite E2. split; [|split].
      * unfold resume. cbn [copy_up node_pos child_pos child_end].
        replace (o + 2 * length cs + 2 =? o + 2 + 2 * length cs)%nat with true by (symmetry; apply Nat.eqb_eq; lia).
        cbn [negb]. reflexivity.
      * rewrite count_values_eq. eapply post_trans; [exact P1|exact P2|..]; unfold cells, nvals; cbn [nch nval]; try lia.
      * pose proof P2 as (Pl2 & Pf2 & _ & _). apply Rep with (z := z1).
        -- rewrite Pf2 by lia. auto.
        -- eapply post_slot; eauto.
        -- rewrite Pf2, Pf by lia. auto.
        -- lia.
        -- auto.
Qed.

Lemma pcopy_ok t : packs T other t -> exists m', pcopy T other = Ok m' /\ packs T m' t.
Proof.
  intros (o & E0 & R & Ln & Lc & Hc & Hr). unfold pcopy. set (m := PM [] (pk other)).
  pose proof (count_cells _ _ _ _ _ _ R) as CC.
  assert (Ei : root_item m = Ok (PIt o (o + 2) (o + 2 + 2 * length (nch t)))).
  { unfold root_item, root_pos. change (pk m) with (pk other). rewrite (rd_some other _ _ E0). cbn [bind].
    rewrite (fwd_ok other) by lia. cbn [bind Nat.add]. unfold open_node. destruct (rep_head _ _ _ _ _ _ R) as (z & _ & _ & Es).
    rewrite (rd_some other _ _ Es). cbn [bind]. unfold cells in Ln. rewrite (fwd_ok other) by lia. cbn [bind]. repeat f_equal; lia. }
  rewrite Ei. cbn [bind node_pos child_pos child_end]. destruct t as [v cs]. cbn [nch] in *.
  assert (Hv : Z.of_nat (length (store m) + count_values (TN v cs)) < null_value T) by (cbn [m store length]; lia).
  pose proof (count_values_eq v cs) as CV.
  destruct (handler_ok m 1 o (TN v cs) R) as (m1 & z1 & E1 & P1 & Z1 & S1).
  { unfold nvals; cbn [nval]. destruct v; lia. }
  rewrite E1. cbn [bind]. pose proof P1 as (Pl & Pf & _ & Pr). change (pk m) with (pk other) in *.
  pose proof R as R0. apply rep_inv in R as (z & C1 & C2 & C3 & C4 & R). pose proof (rep_lo _ _ _ _ _ _ R0) as L0.
  destruct cs as [|x0 cs0] eqn:Ecs.
  - cbn [length]. replace (o + 2 =? o + 2 + 2 * 0)%nat with true by (symmetry; apply Nat.eqb_eq; lia).
    exists m1. split; auto. cbn [kvalues fold_right] in CV. exists o. split; [rewrite Pf by lia; auto|]. split; [|split; [rewrite Pl; auto|]].
    + apply Rep with (z := z1); auto; [rewrite Pf by (cbn [length]; lia); auto|cbn [length] in *; lia|].
      apply reps_nil_inv in R. rewrite R. constructor.
    + rewrite (post_store _ _ _ _ _ P1). unfold nvals. cbn [m store length Nat.add nval].
      split; [rewrite CV; destruct v; auto|]. split; [destruct v; lia|auto].
  - rewrite <- Ecs in *. assert (Hne : cs <> []) by (subst; discriminate). clear Ecs x0 cs0.
    assert (0 < length cs)%nat by (destruct cs; cbn; [congruence|lia]).
    replace (o + 2 =? o + 2 + 2 * length cs)%nat with false by (symmetry; apply Nat.eqb_neq; lia).
    assert (KL : (1 <= kleaves cs)%nat).
    { destruct cs as [|[d n] l']; [congruence|]. pose proof (leaves_pos n). cbn [kleaves fold_right snd]. lia. }
    pose proof (leaves_count (TN v cs)) as LC. rewrite leaves_eq in LC.
    replace (match cs with [] => 1%nat | _ => kleaves cs end) with (kleaves cs) in LC by (destruct cs; congruence).
    destruct (length (pk other)) as [|FF] eqn:EF; [lia|]. rewrite copy_loop_S.
    destruct (visit_kids cs) with (i := O) (g := length (pk m1)) (F := (FF - kleaves cs + 1)%nat) (off := o) (st := @nil pitem) (m := m1) (lo := 1%nat)
      (e := (o + 2 + 2 * length cs)%nat) as (m2 & E2 & P2 & N2).
    + apply Forall_forall. intros p _. apply visit.
    + auto.
    + eapply reps_frame; [| |exact R| |]; [auto|lia| |]; intros p Hp; apply Pf; lia.
    + lia.
    + cbn [Nat.add]. lia.
    + cbn [Nat.add]. lia.
    + intros [c sub] Hp. cbn [snd]. rewrite node_count_eq in CC. assert (node_count sub <= knodes cs)%nat; [|lia].
      clear -Hp. induction cs as [|[d n] cs IH]; [destruct Hp|]. cbn [knodes fold_right snd]. fold (knodes cs).
      destruct Hp as [E|Hp]; [injection E as -> ->; lia|]. specialize (IH Hp). lia.
    + rewrite (post_store _ _ _ _ _ P1). unfold nvals; cbn [nval m store length Nat.add]. destruct v; lia.
    + replace (FF - kleaves cs + 1 + kleaves cs - 1)%nat with FF in E2 by (rewrite node_count_eq in *; lia).
      replace (o + 2 + 2 * 0)%nat with (o + 2)%nat in E2 by lia. rewrite E2. unfold resume.
      cbn [copy_up node_pos child_pos child_end Nat.add].
      replace (o + 2 * length cs + 2 =? o + 2 + 2 * length cs)%nat with true by (symmetry; apply Nat.eqb_eq; lia). cbn [negb bind].
      exists m2. split; auto. pose proof P2 as (Pl2 & Pf2 & _ & Pr2). exists o. split; [rewrite Pf2, Pf by lia; auto|].
      split; [|split; [rewrite Pl2, Pl; unfold cells in *; cbn [nch] in *; lia|]].
      * apply Rep with (z := z1).
        -- rewrite Pf2 by lia. auto.
        -- eapply post_slot; eauto.
        -- rewrite Pf2, Pf by lia. auto.
        -- lia.
        -- auto.
      * rewrite (post_store _ _ _ _ _ P2), (post_store _ _ _ _ _ P1). unfold nvals; cbn [nval m store length Nat.add].
        split; [rewrite CV; destruct v; auto|]. split; [destruct v; lia|auto].
Qed.

(** the values of the copy come from the original *)
Definition from_other (m : pmap V) : Prop := forall a, In a (store m) -> In a so.
Lemma handler_from p m m' : copy_handler T other p m = Ok m' -> from_other m -> from_other m'.
Proof.
  unfold copy_handler. destruct (rd (pk m) p) as [ov| |]; try discriminate. cbn [bind]. destruct (ov =? null_value T); [intros H; injection H as <-; auto|].
  destruct (nthZ so ov) as [a|] eqn:E; try discriminate. cbn [deref bind]. intros H F. injection H as <-. intros w Hw. cbn in Hw.
  apply in_app_iff in Hw as [Hw|[<-|[]]]; auto. unfold nthZ in E. destruct (_ && _); [|discriminate]. eapply nth_error_In; eauto.
Qed.
Lemma down_from : forall f st cp m st' m', copy_down T f other st cp m = Ok (st', m') -> from_other m -> from_other m'.
Proof.
  induction f as [|f IH]; intros st cp m st' m' E F; [discriminate|]. cbn [copy_down] in E. destruct st as [|it st]; [discriminate|].
  destruct (rd (pk m) (cp + 1)); try discriminate; cbn [bind] in E.
  destruct (back (node_pos it) a) as [p| |]; try discriminate; cbn [bind] in E.
  destruct (rd (pk m) (p + 1)) as [n| |]; try discriminate; cbn [bind] in E.
  destruct (copy_handler T other p m) as [m1| |] eqn:E1; try discriminate; cbn [bind] in E.
  destruct (fwd (pk m1) (p + 2) n) as [e| |]; try discriminate; cbn [bind] in E.
  pose proof (handler_from _ _ _ E1 F). destruct (n =? 0); [injection E as <- <-; auto|eauto].
Qed.
Lemma loop_from : forall f st cp m m', copy_loop T f other st cp m = Ok m' -> from_other m -> from_other m'.
Proof.
  induction f as [|f IH]; intros st cp m m' E F; [discriminate|]. cbn [copy_loop] in E.
  destruct (copy_down T (length (pk m)) other st cp m) as [[st1 m1]| |] eqn:E1; try discriminate; cbn [bind] in E.
  pose proof (down_from _ _ _ _ _ _ E1 F). destruct (copy_up (tl st1)) as [[[st2 cp2]|]| |]; try discriminate; cbn [bind] in E; [eauto|injection E as <-; auto].
Qed.
Lemma pcopy_from m' : pcopy T other = Ok m' -> forall a, In a (store m') -> In a so.
Proof.
  unfold pcopy. set (m := PM [] (pk other)). destruct (root_item m) as [it| |]; try discriminate. cbn [bind].
  destruct (copy_handler T other (node_pos it) m) as [m1| |] eqn:E1; try discriminate. cbn [bind].
  assert (F : from_other m1) by (eapply handler_from; eauto; intros a []).
  destruct (_ =? _)%nat; [intros E; injection E as <-; auto|]. intros E. eapply loop_from; eauto.
Qed.
End COPY.
