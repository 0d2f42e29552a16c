(** The layout of the packed buffer, and what compact writes. *)
From Coq Require Import List ZArith Lia Bool Arith Znumtheory.
From Verif Require Import Base TrieModel TrieSpec TrieProofs PackModel PackSpec.
Import ListNotations.
Open Scope Z_scope.

Lemma pmod_pos T : 0 < pmod T.
Proof. unfold pmod. apply Z.pow_pos_nonneg; lia. Qed.
Lemma pmod_256 T : pt_ok T -> 256 <= pmod T.
Proof.
  intros [H _]. unfold pmod. change 256 with (2 ^ 8). apply Z.pow_le_mono_r; lia.
Qed.
Lemma wrap_range T z : 0 <= wrap T z < pmod T.
Proof. apply Z.mod_pos_bound, pmod_pos. Qed.
Lemma wrap_small T z : 0 <= z < pmod T -> wrap T z = z.
Proof. intros. apply Z.mod_small; auto. Qed.
Lemma cast_wrap T u : pt_ok T -> in_units T u -> cast_unit T (wrap T u) = u.
Proof.
  intros [_ Hu] H. unfold cast_unit, wrap, pmod.
  assert (P : 0 < 2 ^ ubits T) by (apply Z.pow_pos_nonneg; lia).
  rewrite <- (Zmod_div_mod (2 ^ ubits T)); auto; [|apply Z.pow_pos_nonneg; lia|].
  2:{ exists (2 ^ (8 * Z.of_nat (pbytes T) - ubits T)). rewrite <- Z.pow_add_r by lia. f_equal. lia. }
  assert (E : 2 ^ ubits T = 2 * 2 ^ (ubits T - 1)) by (rewrite <- Z.pow_succ_r by lia; f_equal; lia).
  unfold in_units in H. destruct (usigned T); cbn [andb].
  - destruct (Z_lt_dec u 0).
    + replace (u mod 2 ^ ubits T) with (u + 2 ^ ubits T).
      * destruct (Z.leb_spec (2 ^ (ubits T - 1)) (u + 2 ^ ubits T)); lia.
      * rewrite <- (Z_mod_plus u 1) by lia. rewrite Z.mul_1_l, Z.mod_small; lia.
    + rewrite Z.mod_small by lia. destruct (Z.leb_spec (2 ^ (ubits T - 1)) u); lia.
  - apply Z.mod_small; auto.
Qed.

Lemma nthZ_app {A} (l l' : list A) z a : nthZ l z = Some a -> nthZ (l ++ l') z = Some a.
Proof.
  unfold nthZ. destruct ((0 <=? z) && (z <? Z.of_nat (length l))) eqn:E; [|discriminate].
  apply andb_true_iff in E as [E1 E2]. apply Z.leb_le in E1. apply Z.ltb_lt in E2.
  intros H. rewrite app_length.
  replace ((0 <=? z) && (z <? Z.of_nat (length l + length l'))) with true
    by (symmetry; apply andb_true_iff; split; [apply Z.leb_le|apply Z.ltb_lt]; lia).
  rewrite nth_error_app1; auto. apply nth_error_Some. congruence.
Qed.
Lemma nthZ_snoc {A} (l : list A) a : nthZ (l ++ [a]) (Z.of_nat (length l)) = Some a.
Proof.
  unfold nthZ. rewrite app_length; cbn [length].
  replace ((0 <=? Z.of_nat (length l)) && (Z.of_nat (length l) <? Z.of_nat (length l + 1))) with true
    by (symmetry; apply andb_true_iff; split; [apply Z.leb_le|apply Z.ltb_lt]; lia).
  rewrite Nat2Z.id, nth_error_app2, Nat.sub_diag by lia. reflexivity.
Qed.
Lemma nthZ_nth {A} (l : list A) i : nthZ l (Z.of_nat i) = nth_error l i.
Proof.
  unfold nthZ. destruct (Z.ltb_spec (Z.of_nat i) (Z.of_nat (length l))).
  - replace (0 <=? Z.of_nat i) with true by (symmetry; apply Z.leb_le; lia). cbn. rewrite Nat2Z.id. auto.
  - rewrite andb_false_r. symmetry. apply nth_error_None. lia.
Qed.

Section REP.
Context {V : Type}.
Variable T : ptraits.
Local Notation tnode := (tnode V).

(** what a value slot holds *)
Definition slot_ok (s : list V) (z : Z) (v : option V) : Prop :=
  match v with
  | None => z = null_value T
  | Some a => z <> null_value T /\ nthZ s z = Some a
  end.
(** number of cells of one node *)
Definition cells (n : tnode) : nat := (2 + 2 * length (nch n))%nat.

(** [rep b s lo off n]: the subtree [n] occupies the cells from [lo] up to the
    end of its own record, which starts at [off]. *)
Inductive rep (b : list Z) (s : list V) : nat -> nat -> tnode -> Prop :=
| Rep lo off v cs z :
    nth_error b off = Some z -> slot_ok s z v ->
    nth_error b (off + 1) = Some (Z.of_nat (2 * length cs)) ->
    (off + 2 + 2 * length cs <= length b)%nat ->
    reps b s off lo 0 cs -> rep b s lo off (TN v cs)
with reps (b : list Z) (s : list V) : nat -> nat -> nat -> list (Z * tnode) -> Prop :=
| RepN off i : reps b s off off i []
| RepC off lo i c sub o l :
    in_units T c ->
    nth_error b (off + 2 + 2 * i) = Some (wrap T c) ->
    nth_error b (off + 3 + 2 * i) = Some (Z.of_nat (off - o)) -> (o < off)%nat ->
    rep b s lo o sub -> reps b s off (o + cells sub) (S i) l ->
    reps b s off lo i ((c, sub) :: l).

Lemma slot_mono s x z v : slot_ok s z v -> slot_ok (s ++ x) z v.
Proof. destruct v; cbn; auto. intros [H1 H2]; split; auto. apply nthZ_app; auto. Qed.

Lemma rep_inv b s lo off v cs : rep b s lo off (TN v cs) ->
  exists z, nth_error b off = Some z /\ slot_ok s z v /\
    nth_error b (off + 1) = Some (Z.of_nat (2 * length cs)) /\
    (off + 2 + 2 * length cs <= length b)%nat /\ reps b s off lo 0 cs.
Proof. intros H; inversion H; subst. eauto 10. Qed.
Lemma reps_nil_inv b s off lo i : reps b s off lo i [] -> lo = off.
Proof. intros H; inversion H; auto. Qed.
Lemma reps_cons_inv b s off lo i c sub l : reps b s off lo i ((c, sub) :: l) ->
  exists o, in_units T c /\ nth_error b (off + 2 + 2 * i) = Some (wrap T c) /\
    nth_error b (off + 3 + 2 * i) = Some (Z.of_nat (off - o)) /\ (o < off)%nat /\
    rep b s lo o sub /\ reps b s off (o + cells sub) (S i) l.
Proof. intros H; inversion H; subst. eauto 10. Qed.

Lemma rep_lo b s n : forall lo off, rep b s lo off n -> (lo <= off)%nat.
Proof.
  induction n as [v cs IH] using tnode_ind2. intros lo off H. apply rep_inv in H as (z & _ & _ & _ & _ & H).
  revert lo H. generalize 0%nat as i. induction cs as [|[c sub] cs IHc]; intros i lo H.
  - apply reps_nil_inv in H. lia.
  - apply reps_cons_inv in H as (o & _ & _ & _ & _ & H1 & H2).
    inversion IH as [|? ? I1 I2]; subst. specialize (IHc I2 _ _ H2). apply I1 in H1. unfold cells in *. lia.
Qed.
Lemma reps_lo b s off lo i l : reps b s off lo i l -> (lo <= off)%nat.
Proof.
  revert lo i; induction l as [|[c sub] l IH]; intros lo i H.
  - apply reps_nil_inv in H. lia.
  - apply reps_cons_inv in H as (o & _ & _ & _ & _ & H1 & H2). apply rep_lo in H1. apply IH in H2. unfold cells in *. lia.
Qed.
Lemma rep_len b s lo off n : rep b s lo off n -> (off + cells n <= length b)%nat.
Proof. destruct n. intros H; apply rep_inv in H as (z & _ & _ & _ & H & _). unfold cells; cbn [nch]. lia. Qed.

(** the layout only depends on its own cells and on the used part of the store *)
Lemma rep_frame b s b' s' n : (forall z v, slot_ok s z v -> slot_ok s' z v) ->
  forall lo off, rep b s lo off n -> (length b <= length b')%nat ->
  (forall p, (lo <= p < off + cells n)%nat -> nth_error b' p = nth_error b p) -> rep b' s' lo off n.
Proof.
  intros Hs. induction n as [v cs IH] using tnode_ind2. intros lo off H Hl Hp. pose proof (rep_lo _ _ _ _ _ H) as Hlo.
  apply rep_inv in H as (z & H1 & H2 & H3 & H4 & H5). unfold cells in Hp; cbn [nch] in Hp.
  econstructor; [rewrite Hp by lia; eauto|auto|rewrite Hp by lia; auto|lia|].
  assert (Hc : forall p, (off <= p < off + (2 + 2 * length cs))%nat -> nth_error b' p = nth_error b p) by (intros; apply Hp; lia).
  assert (Hk : forall p, (lo <= p < off)%nat -> nth_error b' p = nth_error b p) by (intros; apply Hp; lia).
  clear Hp Hlo H1 H2 H3 H4.
  assert (G : forall L l i lo, (i + length l = L)%nat -> (forall p, (off <= p < off + (2 + 2 * L))%nat -> nth_error b' p = nth_error b p) ->
     (forall p, (lo <= p < off)%nat -> nth_error b' p = nth_error b p) ->
     Forall (fun p => forall lo off, rep b s lo off (snd p) -> (length b <= length b')%nat ->
       (forall q, (lo <= q < off + cells (snd p))%nat -> nth_error b' q = nth_error b q) -> rep b' s' lo off (snd p)) l ->
     reps b s off lo i l -> reps b' s' off lo i l).
  { clear -Hl. intros L l. induction l as [|[c sub] l IHl]; intros i lo Hi Hc Hk HF H.
    - apply reps_nil_inv in H. subst. constructor.
    - pose proof H as H0. apply reps_cons_inv in H as (o & U & C1 & C2 & Ho & R1 & R2). inversion HF as [|? ? F1 F2]; subst.
      pose proof (reps_lo _ _ _ _ _ _ R2) as L2. pose proof (rep_lo _ _ _ _ _ R1) as L1. cbn [length] in *.
      econstructor; [auto|rewrite Hc by lia; auto|rewrite Hc by lia; eauto|auto| |].
      + apply F1; auto. intros q Hq. apply Hk. cbn [snd] in *. lia.
      + apply IHl; auto; [lia|]. intros q Hq. apply Hk. unfold cells in *. lia. }
  apply (G (length cs)); auto.
Qed.
Lemma rep_ext b s x y n lo off : rep b s lo off n -> rep (b ++ x) (s ++ y) lo off n.
Proof.
  intros H. eapply (rep_frame b s); [|exact H| |]; [intros; apply slot_mono; auto|rewrite app_length; lia|].
  intros p Hp. apply nth_error_app1. apply rep_len in H. lia.
Qed.

(** children *)
Lemma reps_nth b s off lo i l j c sub : reps b s off lo i l -> nth_error l j = Some (c, sub) ->
  exists lo' o, in_units T c /\ nth_error b (off + 2 + 2 * (i + j)) = Some (wrap T c) /\
    nth_error b (off + 3 + 2 * (i + j)) = Some (Z.of_nat (off - o)) /\ (o < off)%nat /\ rep b s lo' o sub /\
    (lo <= lo')%nat.
Proof.
  revert lo i j; induction l as [|[c1 n1] l IH]; intros lo i j H E; [destruct j; discriminate|].
  apply reps_cons_inv in H as (o & U & C1 & C2 & Ho & R1 & R2). destruct j as [|j]; cbn in E.
  - injection E as -> ->. exists lo, o. rewrite Nat.add_0_r. repeat split; auto.
  - destruct (IH _ _ _ R2 E) as (lo' & o' & A1 & A2 & A3 & A4 & A5 & A6). exists lo', o'.
    replace (i + S j)%nat with (S i + j)%nat by lia. repeat split; auto.
    apply rep_lo in R1. unfold cells in *. lia.
Qed.
Lemma rep_child b s lo off n j c sub : rep b s lo off n -> nth_error (nch n) j = Some (c, sub) ->
  exists lo' o, in_units T c /\ nth_error b (off + 2 + 2 * j) = Some (wrap T c) /\
    nth_error b (off + 3 + 2 * j) = Some (Z.of_nat (off - o)) /\ (o < off)%nat /\ rep b s lo' o sub /\
    (lo <= lo')%nat.
Proof.
  intros H E. destruct n as [v cs]. apply rep_inv in H as (z & _ & _ & _ & _ & H). apply (reps_nth _ _ _ _ _ _ _ _ _ H E).
Qed.
Lemma rep_head b s lo off n : rep b s lo off n ->
  exists z, nth_error b off = Some z /\ slot_ok s z (nval n) /\
    nth_error b (off + 1) = Some (Z.of_nat (2 * length (nch n))).
Proof. destruct n. intros H; apply rep_inv in H as (z & H1 & H2 & H3 & _). eauto. Qed.

Definition knodes (l : list (Z * tnode)) : nat := fold_right (fun p a => (node_count (snd p) + a)%nat) O l.
Lemma node_count_eq (v : option V) cs : node_count (TN v cs) = S (knodes cs).
Proof. cbn. f_equal. induction cs as [|[c n] cs IH]; cbn; auto. Qed.

Lemma count_cells n : forall b s lo off, rep b s lo off n -> (lo + node_count n <= off + 1)%nat.
Proof.
  induction n as [v cs IH] using tnode_ind2. intros b s lo off H. apply rep_inv in H as (z & _ & _ & _ & _ & H). rewrite node_count_eq.
  revert lo H. generalize 0%nat as i. induction cs as [|[c sub] cs IHc]; intros i lo H.
  - apply reps_nil_inv in H. cbn. lia.
  - apply reps_cons_inv in H as (o & _ & _ & _ & _ & R1 & R2).
    inversion IH as [|? ? I1 I2]; subst. specialize (IHc I2 _ _ R2). specialize (I1 _ _ _ _ R1). cbn [snd] in I1. unfold cells in *. cbn [knodes fold_right snd]. fold (knodes cs). lia.
Qed.

(** ** What compact writes *)
(** the number of cells of a subtree *)
Fixpoint total_cells (n : tnode) : nat :=
  match n with
  | TN _ cs => (2 + 2 * length cs + (fix go l := match l with [] => 0 | (_, c) :: l' => total_cells c + go l' end) cs)%nat
  end.
(** every key unit can be represented *)
Inductive tunits : tnode -> Prop :=
| TU v cs : Forall (fun p => in_units T (fst p) /\ tunits (snd p)) cs -> tunits (TN v cs).

Definition kcells (l : list (Z * tnode)) : nat := fold_right (fun p a => (total_cells (snd p) + a)%nat) O l.
Definition kvalues (l : list (Z * tnode)) : nat := fold_right (fun p a => (count_values (snd p) + a)%nat) O l.
Lemma total_cells_eq v cs : total_cells (TN v cs) = (2 + 2 * length cs + kcells cs)%nat.
Proof.
  cbn. f_equal. f_equal. f_equal. induction cs as [|[c n] cs IH]; cbn; auto.
Qed.
Lemma count_values_eq (v : option V) cs : count_values (TN v cs) = ((if v then 1 else 0) + kvalues cs)%nat.
Proof. cbn. f_equal. induction cs as [|[c n] cs IH]; cbn; auto. Qed.

Definition compact_kids := fix go (l : list (Z * tnode)) (cos : list (nat * Z)) (s : list V) (b : list Z) : res (list (nat * Z) * list V * list Z) :=
  match l with
  | [] => Ok (cos, s, b)
  | (c, sub) :: l' =>
      let* (o, sb) := compact_node T sub s b in
      go l' (cos ++ [(o, c)]) (fst sb) (snd sb)
  end.
Lemma compact_node_eq v cs s b : compact_node T (TN v cs) s b =
  let* (cos, s1, b1) := compact_kids cs [] s b in
  let offset := length b1 in
  match v with
  | Some a =>
      let* (pos, s2) := push_value T s1 a in
      Ok (offset, (s2, push_child_offsets T (b1 ++ [wrap T pos]) offset cos))
  | None => Ok (offset, (s1, push_child_offsets T (b1 ++ [null_value T]) offset cos))
  end.
Proof. reflexivity. Qed.

Lemma pairs_length (f g : nat * Z -> Z) cos : length (flat_map (fun co => [f co; g co]) cos) = (2 * length cos)%nat.
Proof. induction cos; cbn; auto. cbn in IHcos. lia. Qed.
Lemma pairs_nth (f g : nat * Z -> Z) cos j co : nth_error cos j = Some co ->
  nth_error (flat_map (fun co => [f co; g co]) cos) (2 * j) = Some (f co) /\
  nth_error (flat_map (fun co => [f co; g co]) cos) (S (2 * j)) = Some (g co).
Proof.
  revert j; induction cos as [|x cos IH]; intros [|j] H; cbn in H; try discriminate.
  - injection H as ->. auto.
  - apply IH in H as [H1 H2]. replace (2 * S j)%nat with (S (S (2 * j))) by lia. cbn [flat_map app nth_error]. auto.
Qed.

Lemma total_cells_nodes (n : tnode) : (total_cells n + 2 = 4 * node_count n)%nat.
Proof.
  induction n as [v cs IH] using tnode_ind2. rewrite total_cells_eq, node_count_eq.
  induction cs as [|[c sub] cs IHc]; cbn; auto.
  inversion IH as [|? ? I1 I2]; subst. specialize (IHc I2). cbn [snd length] in *. fold (kcells cs) (knodes cs). lia.
Qed.

(** kids laid out one after the other *)
Inductive kids_at (b : list Z) (s : list V) : nat -> nat -> list (Z * tnode) -> list (nat * Z) -> Prop :=
| KN lo : kids_at b s lo lo [] []
| KC lo hi o c sub l cos : in_units T c -> rep b s lo o sub -> kids_at b s (o + cells sub) hi l cos ->
    kids_at b s lo hi ((c, sub) :: l) ((o, c) :: cos).
Lemma kids_ext b s x y lo hi l cos : kids_at b s lo hi l cos -> kids_at (b ++ x) (s ++ y) lo hi l cos.
Proof. induction 1; [constructor|]. econstructor; eauto. apply rep_ext; auto. Qed.
Lemma kids_snoc b s lo hi l cos o c sub : kids_at b s lo hi l cos -> in_units T c -> rep b s hi o sub ->
  kids_at b s lo (o + cells sub) (l ++ [(c, sub)]) (cos ++ [(o, c)]).
Proof. induction 1; intros; cbn; repeat (econstructor; eauto). Qed.
Lemma kids_length b s lo hi l cos : kids_at b s lo hi l cos -> length cos = length l.
Proof. induction 1; cbn; auto. Qed.
Lemma kids_lo b s lo hi l cos : kids_at b s lo hi l cos -> (lo <= hi)%nat.
Proof. induction 1; auto. apply rep_lo in H0. unfold cells in *. lia. Qed.

Lemma kids_reps b s off lo l cos i : kids_at b s lo off l cos ->
  (forall j co, nth_error cos j = Some co ->
     nth_error b (off + 2 + 2 * (i + j)) = Some (wrap T (snd co)) /\
     nth_error b (off + 3 + 2 * (i + j)) = Some (Z.of_nat (off - fst co))) ->
  reps b s off lo i l.
Proof.
  intros H. remember off as hi eqn:E in H. revert i E. induction H; intros i E Hc; subst; [constructor|].
  destruct (Hc O _ eq_refl) as [C1 C2]. rewrite Nat.add_0_r in C1, C2. cbn [fst snd] in *.
  pose proof (kids_lo _ _ _ _ _ _ H1) as L.
  econstructor; [auto|exact C1|exact C2|unfold cells in *; lia|auto|].
  apply IHkids_at; auto. intros j co Hj. destruct (Hc (S j) co Hj) as [D1 D2].
  replace (i + S j)%nat with (S i + j)%nat in * by lia. auto.
Qed.

Lemma push_length b off cos : length (push_child_offsets T b off cos) = (length b + 1 + 2 * length cos)%nat.
Proof. unfold push_child_offsets. rewrite app_length. cbn [length]. rewrite pairs_length. lia. Qed.

(** a node pushed behind its children *)
Lemma push_rep b s lo l cos z v : kids_at b s lo (length b) l cos -> slot_ok s z v ->
  Z.of_nat (length b + 2 + 2 * length l) <= pmod T ->
  rep (push_child_offsets T (b ++ [z]) (length b) cos) s lo (length b) (TN v l).
Proof.
  intros K Hs Hf. pose proof (kids_length _ _ _ _ _ _ K) as L. unfold push_child_offsets.
  set (ps := flat_map _ cos). rewrite <- app_assoc. cbn [app].
  assert (Lp : length ps = (2 * length cos)%nat) by apply pairs_length.
  apply Rep with (z := z).
  - rewrite nth_error_app2, Nat.sub_diag by lia. reflexivity.
  - auto.
  - rewrite nth_error_app2 by lia. replace (length b + 1 - length b)%nat with 1%nat by lia. cbn [nth_error].
    rewrite L, wrap_small by lia. f_equal. lia.
  - rewrite app_length. cbn [length]. lia.
  - apply kids_reps with (cos := cos).
    + rewrite <- (app_nil_r s). apply kids_ext; auto.
    + intros j co Hj. assert (j < length cos)%nat by (apply nth_error_Some; congruence).
      destruct (pairs_nth (fun co => wrap T (snd co)) (fun co => wrap T (Z.of_nat (length b) - Z.of_nat (fst co))) cos j co Hj) as [P1 P2].
      fold ps in P1, P2.
      assert (Ho : (fst co < length b)%nat).
      { clear -K Hj. remember (length b) as hi. clear Heqhi. revert j Hj. induction K; intros [|j] Hj; cbn in Hj; try discriminate.
        - injection Hj as <-. apply kids_lo in K. unfold cells in *. cbn. lia.
        - eauto. }
      split.
      * rewrite nth_error_app2 by lia. replace (length b + 2 + 2 * (0 + j) - length b)%nat with (S (S (2 * j))) by lia. exact P1.
      * rewrite nth_error_app2 by lia. replace (length b + 3 + 2 * (0 + j) - length b)%nat with (S (S (S (2 * j)))) by lia.
        etransitivity; [exact P2|]. rewrite wrap_small by lia. f_equal. lia.
Qed.

Definition in_range (z : Z) : Prop := 0 <= z < pmod T.
Lemma null_range : in_range (null_value T).
Proof. unfold in_range, null_value. pose proof (pmod_pos T). lia. Qed.
Lemma push_range b off cos : Forall in_range b -> Forall in_range (push_child_offsets T b off cos).
Proof.
  intros H. apply Forall_app; split; auto. constructor; [apply wrap_range|].
  apply Forall_forall. intros z Hz. apply in_flat_map in Hz as (co & _ & [<-|[<-|[]]]); apply wrap_range.
Qed.

(** compact_node lays the subtree out behind what is there *)
Lemma compact_node_spec n : tunits n -> forall s b,
  Z.of_nat (length s + count_values n) < null_value T ->
  Z.of_nat (length b + total_cells n) <= pmod T ->
  exists o y x, compact_node T n s b = Ok (o, (s ++ y, b ++ x)) /\ length y = count_values n /\
    length x = total_cells n /\ (o + cells n = length b + total_cells n)%nat /\
    (Forall in_range b -> Forall in_range (b ++ x)) /\
    rep (b ++ x) (s ++ y) (length b) o n.
Proof.
  induction n as [v cs IH] using tnode_ind2. intros HU s b Hs Hb. rewrite compact_node_eq.
  rewrite count_values_eq in Hs. rewrite total_cells_eq in Hb.
  inversion HU as [? ? HU']; subst.
  assert (G : forall l cos0 l0 s b lo, Forall (fun p => in_units T (fst p) /\ tunits (snd p)) l ->
     Forall (fun p : Z * tnode => tunits (snd p) -> forall s b, Z.of_nat (length s + count_values (snd p)) < null_value T ->
       Z.of_nat (length b + total_cells (snd p)) <= pmod T ->
       exists o y x, compact_node T (snd p) s b = Ok (o, (s ++ y, b ++ x)) /\ length y = count_values (snd p) /\
         length x = total_cells (snd p) /\ (o + cells (snd p) = length b + total_cells (snd p))%nat /\
         (Forall in_range b -> Forall in_range (b ++ x)) /\ rep (b ++ x) (s ++ y) (length b) o (snd p)) l ->
     kids_at b s lo (length b) l0 cos0 ->
     Z.of_nat (length s + kvalues l) < null_value T -> Z.of_nat (length b + kcells l) <= pmod T ->
     exists cos y x, compact_kids l cos0 s b = Ok (cos, s ++ y, b ++ x) /\ length y = kvalues l /\ length x = kcells l /\
       (Forall in_range b -> Forall in_range (b ++ x)) /\
       kids_at (b ++ x) (s ++ y) lo (length (b ++ x)) (l0 ++ l) cos).
  { clear. induction l as [|[c sub] l IHl]; intros cos0 l0 s b lo HU HF K Hs Hb.
    - exists cos0, [], []. rewrite !app_nil_r. repeat split; auto.
    - inversion HU as [|? ? [U1 U2] U3]; subst. inversion HF as [|? ? F1 F2]; subst. cbn [fst snd] in *.
      cbn [kvalues kcells fold_right snd] in Hs, Hb. fold (kvalues l) in Hs. fold (kcells l) in Hb.
      destruct (F1 U2 s b) as (o & y & x & E & Ly & Lx & Lo & Rg & R); [lia|lia|].
      cbn [compact_kids]. rewrite E. cbn [bind fst snd].
      destruct (IHl (cos0 ++ [(o, c)]) (l0 ++ [(c, sub)]) (s ++ y) (b ++ x) lo U3 F2) as (cos & y' & x' & E' & Ly' & Lx' & Rg' & K').
      + replace (length (b ++ x)) with (o + cells sub)%nat by (rewrite app_length; lia).
        apply kids_snoc with (hi := length b); [apply kids_ext; auto|auto|auto].
      + rewrite app_length; lia.
      + rewrite app_length; lia.
      + exists cos, (y ++ y'), (x ++ x'). rewrite !app_assoc. split; [exact E'|]. rewrite !app_length. cbn [kvalues kcells fold_right snd].
        fold (kvalues l). fold (kcells l). split; [lia|]. split; [lia|]. split; [auto|].
        rewrite <- (app_assoc l0) in K'. cbn [app] in K'. rewrite !app_length in *. rewrite <- ?app_assoc in *. exact K'. }
  destruct (G cs [] [] s b (length b) HU' IH) as (cos & y & x & E & Ly & Lx & Rg & K); [constructor|destruct v; lia|lia|].
  rewrite E. cbn [bind]. cbn [app] in K. pose proof (kids_length _ _ _ _ _ _ K) as Lc. destruct v as [a|].
  - unfold push_value. replace (max_value_pos T <=? Z.of_nat (length (s ++ y))) with false.
    2:{ symmetry; apply Z.leb_gt. unfold max_value_pos. rewrite app_length. lia. }
    cbn [bind]. set (z := wrap T _).
    assert (Ez : z = Z.of_nat (length (s ++ y))).
    { apply wrap_small. rewrite app_length. unfold null_value in Hs. lia. }
    unfold push_child_offsets.
    eexists _, (y ++ [a]), (x ++ z :: wrap T (Z.of_nat (length cos * 2)) :: _).
    rewrite !app_assoc. split; [do 3 f_equal; rewrite <- (app_assoc (b ++ x)); reflexivity|].
    split; [rewrite app_length; cbn [length]; rewrite count_values_eq; lia|].
    split; [rewrite app_length; cbn [length]; rewrite pairs_length, total_cells_eq; lia|].
    split; [unfold cells; cbn [nch]; rewrite app_length, total_cells_eq; lia|].
    split.
    + intros Hr. specialize (Rg Hr). apply Forall_app; split; auto. constructor; [apply wrap_range|].
      pose proof (push_range [] (length (b ++ x)) cos (Forall_nil _)) as P. exact P.
    + pose proof (push_rep (b ++ x) ((s ++ y) ++ [a]) (length b) cs cos z (Some a)) as P.
      unfold push_child_offsets in P. rewrite <- (app_assoc (b ++ x)) in P. cbn [app] in P. apply P.
      * rewrite <- (app_nil_r (b ++ x)) at 1. apply kids_ext; auto.
      * split; [rewrite Ez, app_length; lia|]. rewrite Ez. apply nthZ_snoc.
      * rewrite app_length. lia.
  - unfold push_child_offsets.
    eexists _, y, (x ++ null_value T :: wrap T (Z.of_nat (length cos * 2)) :: _).
    rewrite !app_assoc. split; [do 3 f_equal; rewrite <- (app_assoc (b ++ x)); reflexivity|].
    split; [rewrite count_values_eq; lia|].
    split; [rewrite app_length; cbn [length]; rewrite pairs_length, total_cells_eq; lia|].
    split; [unfold cells; cbn [nch]; rewrite app_length, total_cells_eq; lia|].
    split.
    + intros Hr. specialize (Rg Hr). apply Forall_app; split; auto. constructor; [apply null_range|].
      pose proof (push_range [] (length (b ++ x)) cos (Forall_nil _)) as P. exact P.
    + pose proof (push_rep (b ++ x) (s ++ y) (length b) cs cos (null_value T) None) as P.
      unfold push_child_offsets in P. rewrite <- (app_assoc (b ++ x)) in P. cbn [app] in P. apply P; auto; [reflexivity|].
      rewrite app_length. lia.
Qed.

(** a packed map that represents the tree [t] *)
Definition packs (m : pmap V) (t : tnode) : Prop :=
  exists o, nth_error (pk m) 0 = Some (Z.of_nat o) /\ rep (pk m) (store m) 1 o t /\
    length (pk m) = (o + cells t)%nat /\ length (store m) = count_values t /\
    Z.of_nat (length (store m)) < null_value T /\ Forall in_range (pk m).

Lemma compact_packs t : pt_ok T -> tunits t -> Z.of_nat (4 * node_count t) <= pmod T ->
  Z.of_nat (count_values t) < null_value T ->
  exists m, pack T t = Ok m /\ packs m t.
Proof.
  intros HT HU Hf Hc. pose proof (total_cells_nodes t) as Et. unfold pack, compact.
  destruct (compact_node_spec t HU [] [0]) as (o & y & x & E & Ly & Lx & Lo & Rg & R); cbn [length]; [lia|lia|].
  rewrite E. cbn [bind fst snd]. eexists. split; [reflexivity|]. cbn [app length] in *. unfold packs. cbn [pk store].
  assert (Ro : (1 <= o)%nat) by (apply rep_lo in R; auto).
  assert (Lo' : 0 <= Z.of_nat o < pmod T) by (apply rep_len in R; cbn [length] in R; unfold cells in *; lia).
  exists o. rewrite wrap_small by auto. split; [reflexivity|]. split.
    eapply (rep_frame (0 :: x) y); [auto|exact R|cbn [set_nth length]; lia|].
    intros p Hp. destruct p; [lia|reflexivity].
  - cbn [set_nth length]. split; [lia|]. split; [lia|]. split; [lia|].
    specialize (Rg ltac:(constructor; [pose proof (pmod_pos T); unfold in_range; lia|constructor])).
    inversion Rg; subst. constructor; auto.
Qed.

(** ** Where the values in the store come from *)
Inductive has_val (a : V) : tnode -> Prop :=
| HV_own cs : has_val a (TN (Some a) cs)
| HV_kid v cs c sub : In (c, sub) cs -> has_val a sub -> has_val a (TN v cs).

Lemma compact_node_vals n : forall s b o s' b', compact_node T n s b = Ok (o, (s', b')) ->
  forall a, In a s' -> In a s \/ has_val a n.
Proof.
  induction n as [v cs IH] using tnode_ind2. intros s b o s' b' E a Ha. rewrite compact_node_eq in E.
  destruct (compact_kids cs [] s b) as [[[cos s1] b1]| |] eqn:Ek; try discriminate. cbn [bind] in E.
  assert (G : forall l cos0 s b cos s1 b1, Forall (fun p : Z * tnode => forall s b o s' b', compact_node T (snd p) s b = Ok (o, (s', b')) ->
      forall a, In a s' -> In a s \/ has_val a (snd p)) l -> compact_kids l cos0 s b = Ok (cos, s1, b1) ->
      In a s1 -> In a s \/ exists c sub, In (c, sub) l /\ has_val a sub).
  { clear. induction l as [|[c sub] l IHl]; intros cos0 s b cos s1 b1 HF E Ha; cbn [compact_kids] in E.
    - injection E as <- <- <-. auto.
    - inversion HF as [|? ? F1 F2]; subst. destruct (compact_node T sub s b) as [[o [s2 b2]]| |] eqn:E1; try discriminate.
      cbn [bind fst snd] in E. destruct (IHl _ _ _ _ _ _ F2 E Ha) as [H|(c' & sub' & H1 & H2)].
      + destruct (F1 _ _ _ _ _ E1 _ H) as [H'|H']; auto. right. exists c, sub. split; auto. left; auto.
      + right. exists c', sub'. split; auto. right; auto. }
  assert (K : In a s1 -> In a s \/ has_val a (TN v cs)).
  { intros H. destruct (G _ _ _ _ _ _ _ IH Ek H) as [|(c & sub & H1 & H2)]; auto. right. econstructor; eauto. }
  destruct v as [w|].
  - unfold push_value in E. destruct (_ <=? _); try discriminate. cbn [bind] in E. injection E as <- <- <-.
    apply in_app_iff in Ha as [Ha|[<-|[]]]; auto. right. constructor.
  - injection E as <- <- <-. auto.
Qed.
Lemma pack_vals t m a : pack T t = Ok m -> In a (store m) -> has_val a t.
Proof.
  unfold pack, compact. destruct (compact_node T t [] [0]) as [[o [s b]]| |] eqn:E; try discriminate. cbn [bind].
  intros H Ha. injection H as <-. cbn in Ha. destruct (compact_node_vals _ _ _ _ _ _ E _ Ha) as [[]|]; auto.
Qed.
Lemma has_val_lookup a t : wf t -> has_val a t -> exists k, lookup t k = Some a.
Proof.
  intros Hw H. revert Hw. induction H as [cs|v cs c sub HI H IH]; intros Hw; [exists []; reflexivity|].
  pose proof Hw as Hw'. apply wf_inv in Hw' as [Hs Hf]. rewrite Forall_forall in Hf. destruct (Hf _ HI) as [W _]. destruct (IH W) as (k & E).
  exists (c :: k). apply In_nth_error in HI as (i & Hi). rewrite lookup_cons. cbn [nch].
  rewrite (find_child_sorted _ _ _ _ Hs Hi). exact E.
Qed.
End REP.
