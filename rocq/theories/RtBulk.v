(** Bulk loading, and the copies, moves and swaps of a linked tree. *)

From Coq Require Import List ZArith Lia Bool Permutation.
From Verif Require Import Base RtModel RtBox RtPerm RtTree RtShape RtSplit RtInsert.
Import ListNotations.
Open Scope nat_scope.

(** *** Segment sizes *)
Section Opt.
Variable C : cfg.

Lemma opt_up_range fuel : forall size count k, opt_up C fuel size count = Some k -> size <= k < size + fuel.
Proof.
  induction fuel as [|fuel IH]; intros size count k H; cbn [opt_up] in H; [discriminate|].
  destruct (_ || _); [injection H as <-; lia|]. apply IH in H. lia.
Qed.

Lemma opt_down_range fuel : forall size count k, opt_down C fuel size count = Some k -> mn C < k <= size.
Proof.
  induction fuel as [|fuel IH]; intros size count k H; cbn [opt_down] in H; [discriminate|].
  destruct (Nat.ltb_spec (mn C) size); [|discriminate].
  destruct (_ || _); [injection H as <-; lia|]. apply IH in H. lia.
Qed.

Lemma opt_size_low init count lo : lo <= init -> lo <= S (mn C) -> lo <= opt_size C init count.
Proof.
  intros H1 H2. unfold opt_size. destruct (opt_up C _ _ _) eqn:E; [apply opt_up_range in E; lia|].
  destruct (opt_down C _ _ _) eqn:E2; [apply opt_down_range in E2; lia|lia].
Qed.

Lemma opt_size_high init count : opt_size C init count <= Nat.max init (mx C).
Proof.
  unfold opt_size. destruct (opt_up C _ _ _) eqn:E; [apply opt_up_range in E; lia|].
  destruct (opt_down C _ _ _) eqn:E2; [apply opt_down_range in E2; lia|lia].
Qed.
End Opt.

Section B.
Context {V : Type}.
Variable C : cfg.
Hypothesis T : traits_ok C.
Implicit Types (n t : nd V) (ks l seg : list (nd V)) (segs : list (list (nd V))).

Notation nonnil := (fun l : list (nd V) => l <> []).

Lemma chunk_concat fuel k : forall l, 1 <= k -> length l <= fuel -> concat (chunk fuel k l) = l.
Proof.
  induction fuel as [|fuel IH]; intros l Hk Hl; cbn [chunk].
  - destruct l; [reflexivity|cbn in Hl; lia].
  - destruct l as [|y l]; [reflexivity|]. cbn [concat]. rewrite IH by (try rewrite skipn_length; cbn [length] in *; lia).
    apply firstn_skipn.
Qed.

Lemma chunk_forall fuel k : forall l, 1 <= k -> Forall (fun s => s <> [] /\ length s <= k) (chunk fuel k l).
Proof.
  induction fuel as [|fuel IH]; intros l Hk; cbn [chunk]; [constructor|].
  destruct l as [|y l]; [constructor|]. constructor; [|apply IH; exact Hk].
  split; [destruct k; [lia|discriminate]|]. rewrite firstn_length. lia.
Qed.

Lemma chunk_head fuel k l : 2 <= k -> 2 <= length l -> length l <= fuel ->
  exists s r, chunk fuel k l = s :: r /\ 2 <= length s.
Proof.
  intros Hk Hl Hf. destruct fuel as [|fuel]; [lia|]. destruct l as [|y l]; [cbn in Hl; lia|]. cbn [chunk].
  eexists. eexists. split; [reflexivity|]. rewrite firstn_length. lia.
Qed.

Section N.
Variable S : nat.
Hypothesis S1 : 1 <= S.

Definition ceil (a : nat) : nat := Nat.div (a + S - 1) S.

Lemma ceil_spec a : a <= S * ceil a /\ (forall m, a <= S * m -> ceil a <= m).
Proof.
  unfold ceil. pose proof (Nat.div_mod (a + S - 1) S ltac:(lia)) as E. pose proof (Nat.mod_upper_bound (a + S - 1) S ltac:(lia)) as U.
  set (q := (a + S - 1) / S) in *. split; [nia|]. intros m Hm.
  destruct (le_lt_dec q m); [auto|]. nia.
Qed.

Lemma split_seg_perm d seg : seg <> [] -> Permutation (concat (split_seg C S d seg)) seg.
Proof.
  intros N. unfold split_seg. destruct (Nat.leb_spec (length seg) (mx C)); [cbn [concat]; rewrite app_nil_r; reflexivity|].
  rewrite chunk_concat; [apply (t_sort C T)| |lia].
  apply opt_size_low; [|lia]. destruct (ceil_spec (length seg)) as [G _]. fold (ceil (length seg)).
  destruct (ceil (length seg)); [|lia]. destruct seg; [congruence|]. cbn [length] in G. lia.
Qed.

Lemma split_seg_forall d seg : seg <> [] ->
  Forall (fun s => s <> [] /\ length s <= Nat.max (ceil (length seg)) (mx C) /\ length s <= length seg) (split_seg C S d seg).
Proof.
  intros N. pose proof (split_seg_perm d seg N) as P. unfold split_seg in *.
  destruct (Nat.leb_spec (length seg) (mx C)); [constructor; [split; [auto|lia]|constructor]|].
  assert (K1 : 1 <= opt_size C (ceil (length seg)) (length seg)).
  { apply opt_size_low; [|lia]. destruct (ceil_spec (length seg)) as [G _].
    destruct (ceil (length seg)); [|lia]. destruct seg; [congruence|]. cbn [length] in G. lia. }
  pose proof (chunk_forall (length (srt C (nd V) (mid_lt d) seg)) (opt_size C (ceil (length seg)) (length seg)) (srt C (nd V) (mid_lt d) seg) K1) as F.
  fold (ceil (length seg)) in P |- *.
  set (ch := chunk _ _ _) in *. rewrite Forall_forall in *. intros s Hs. destruct (F s Hs) as [F1 F2]. split; [exact F1|].
  split; [pose proof (opt_size_high C (ceil (length seg)) (length seg)); lia|].
  rewrite <- (Permutation_length P). apply in_split in Hs. destruct Hs as (a & b & ->). rewrite concat_app, app_length. cbn [concat]. rewrite app_length. lia.
Qed.

Lemma split_seg_head d seg : S <= mx C -> 2 <= mx C -> 2 <= length seg -> exists s r, split_seg C S d seg = s :: r /\ 2 <= length s.
Proof.
  intros Hs Hm Hl. unfold split_seg. destruct (Nat.leb_spec (length seg) (mx C)); [eexists; eexists; split; [reflexivity|lia]|].
  apply chunk_head.
  - apply opt_size_low; [|pose proof (t_min C T); lia]. fold (ceil (length seg)). destruct (ceil_spec (length seg)) as [G _].
    destruct (ceil (length seg)) as [|[|c]]; lia.
  - rewrite (Permutation_length (t_sort C T _ _ _)). lia.
  - lia.
Qed.

Lemma split_segs_perm ds : forall segs, Forall nonnil segs -> Permutation (concat (split_segs C S ds segs)) (concat segs).
Proof.
  induction ds as [|d ds IH]; intros segs F; cbn [split_segs]; [reflexivity|].
  destruct segs as [|seg segs]; [reflexivity|]. destruct (Nat.leb _ _); [reflexivity|].
  set (L := seg :: segs) in *. rewrite IH.
  - clear IH. induction L as [|s L IHL]; [reflexivity|]. cbn [flat_map concat]. rewrite concat_app.
    apply Forall_cons_iff in F. destruct F as [F1 F2]. rewrite (split_seg_perm d s F1), (IHL F2). reflexivity.
  - clear IH. induction L as [|s L IHL]; [constructor|]. cbn [flat_map]. apply Forall_cons_iff in F. destruct F as [F1 F2].
    apply Forall_app. split; [|auto]. eapply Forall_impl; [|exact (split_seg_forall d s F1)]. cbn. tauto.
Qed.

Lemma split_segs_nonnil ds : forall segs, Forall nonnil segs -> Forall nonnil (split_segs C S ds segs).
Proof.
  induction ds as [|d ds IH]; intros segs F; cbn [split_segs]; [exact F|].
  destruct segs as [|seg segs]; [exact F|]. destruct (Nat.leb _ _); [exact F|].
  apply IH. set (L := seg :: segs) in *. clearbody L. clear IH. induction L as [|s L IHL]; [constructor|].
  cbn [flat_map]. apply Forall_cons_iff in F. destruct F as [F1 F2].
  apply Forall_app. split; [|auto]. eapply Forall_impl; [|exact (split_seg_forall d s F1)]. cbn. tauto.
Qed.

Lemma split_segs_head ds : S <= mx C -> 2 <= mx C -> forall segs, Forall nonnil segs -> (exists s r, segs = s :: r /\ 2 <= length s) ->
  exists s r, split_segs C S ds segs = s :: r /\ 2 <= length s.
Proof.
  intros Hs Hm. induction ds as [|d ds IH]; intros segs F H; cbn [split_segs]; [exact H|].
  destruct H as (s & r & -> & H). destruct (Nat.leb _ _); [eauto|].
  apply IH.
  - set (L := s :: r) in *. clearbody L. clear IH. induction L as [|s0 L IHL]; [constructor|].
    cbn [flat_map]. apply Forall_cons_iff in F. destruct F as [F1 F2].
    apply Forall_app. split; [|auto]. eapply Forall_impl; [|exact (split_seg_forall d s0 F1)]. cbn. tauto.
  - cbn [flat_map]. destruct (split_seg_head d s Hs Hm H) as (s' & r' & -> & H'). cbn [app]. eauto.
Qed.

(** Capacity: only the first segment is looked at before the next dimension, but whatever is
    longer than [S * mx C] is as long as the first one *)
Lemma ceil_mono a b : a <= b -> ceil a <= ceil b.
Proof. intros H. apply ceil_spec. destruct (ceil_spec b) as [G _]. lia. Qed.

Lemma opt_down_rest init count : 2 <= S -> S * mx C < init -> forall fuel size c, count = S * size + c ->
  1 + S * (init - 1 - size) <= c < mn C + S -> size <= init - 1 -> size <= fuel ->
  exists k, opt_down C fuel size count = Some k /\ Nat.modulo count k < mn C + S.
Proof.
  intros S2 Hi. pose proof (t_min C T) as M1. pose proof (t_max C T) as M2.
  assert (Q : S * (2 * mn C) <= S * mx C) by (apply Nat.mul_le_mono_l; exact M2).
  induction fuel as [|fuel IH]; intros size c Hc Hb Hs Hf.
  - exfalso. assert (size = 0) by lia. subst size. nia.
  - assert (L : mn C + S <= size).
    { assert (E : S * (init - 1 - size) <= mn C + S - 2) by lia.
      assert (E2 : S * (init - 1) <= S * size + (mn C + S - 2)).
      { replace (init - 1) with (size + (init - 1 - size)) by lia. rewrite Nat.mul_add_distr_l. lia. }
      assert (E3 : S * (S * (2 * mn C)) <= S * (init - 1)) by (apply Nat.mul_le_mono_l; lia).
      destruct (le_lt_dec (mn C + S) size) as [|Hlt]; [auto|]. exfalso.
      assert (E4 : S * size <= S * (mn C + S - 1)) by (apply Nat.mul_le_mono_l; lia).
      assert (E5 : exists m, mn C = 1 + m) by (exists (mn C - 1); lia). destruct E5 as [m E5]. rewrite E5 in *.
      assert (E6 : exists s, S = 2 + s) by (exists (S - 2); lia). destruct E6 as [s E6]. rewrite E6 in *.
      replace (1 + m + (2 + s) - 1) with (2 + m + s) in E4 by lia. nia. }
    assert (Em : Nat.modulo count size = c) by (symmetry; apply (Nat.mod_unique count size S c); nia).
    cbn [opt_down]. destruct (Nat.ltb_spec (mn C) size) as [_|]; [|lia]. rewrite Em.
    destruct (Nat.eqb_spec c 0); [lia|]. cbn [orb]. destruct (Nat.leb_spec (mn C) c).
    + exists size. split; [reflexivity|lia].
    + apply (IH (size - 1) (c + S)); [nia| |lia|lia].
      replace (init - 1 - (size - 1)) with (1 + (init - 1 - size)) by lia. nia.
Qed.

Lemma opt_rest count : 2 <= S -> S * mx C < count -> let k := opt_size C (ceil count) count in
  k <= S * mx C \/ Nat.modulo count k <= S * mx C.
Proof.
  intros S2 Hc k. subst k. destruct (ceil_spec count) as [G1 G2].
  assert (Hm : mx C < ceil count) by nia.
  unfold opt_size. replace (mx C - ceil count) with 0 by lia. cbn [opt_up].
  destruct (le_lt_dec (ceil count) (S * mx C)) as [Hi|Hi].
  - left. destruct (opt_down C _ _ _) eqn:E; [apply opt_down_range in E; lia|exact Hi].
  - right.
    assert (Hlo : S * (ceil count - 1) < count).
    { destruct (le_lt_dec count (S * (ceil count - 1))) as [H|H]; [apply G2 in H; lia|exact H]. }
    assert (E : S * ceil count = S * (ceil count - 1) + S) by nia.
    pose proof (t_min C T) as M1. pose proof (t_max C T) as M2.
    destruct (opt_down_rest (ceil count) count S2 Hi (ceil count) (ceil count - 1) (count - S * (ceil count - 1))) as (k & -> & Hk); [lia| |lia|lia|].
    + rewrite Nat.sub_diag, Nat.mul_0_r. lia.
    + nia.
Qed.

Lemma chunk_lens fuel k : forall l, 1 <= k -> length l <= fuel ->
  Forall (fun s => length s = k \/ length s = Nat.modulo (length l) k) (chunk fuel k l).
Proof.
  induction fuel as [|fuel IH]; intros l Hk Hl; cbn [chunk]; [constructor|].
  destruct l as [|y l]; [constructor|]. set (l0 := y :: l) in *.
  destruct (le_lt_dec k (length l0)) as [H|H].
  - constructor; [left; rewrite firstn_length; lia|].
    specialize (IH (skipn k l0) Hk). rewrite skipn_length in IH.
    replace (Nat.modulo (length l0) k) with (Nat.modulo (length l0 - k) k); [apply IH; lia|].
    replace (length l0) with (length l0 - k + 1 * k) at 2 by lia. rewrite Nat.mod_add; lia.
  - constructor; [right; rewrite firstn_length, Nat.mod_small; lia|].
    rewrite skipn_all2 by lia. destruct fuel; constructor.
Qed.

Lemma split_seg_lens d seg : seg <> [] -> mx C < length seg -> let k := opt_size C (ceil (length seg)) (length seg) in
  (exists s r, split_seg C S d seg = s :: r /\ length s = k) /\
  Forall (fun s => length s = k \/ length s = Nat.modulo (length seg) k /\ length s <= k) (split_seg C S d seg).
Proof.
  intros N Hm k. unfold split_seg. destruct (Nat.leb_spec (length seg) (mx C)); [lia|]. fold (ceil (length seg)). fold k.
  assert (Hc : 1 <= ceil (length seg) <= length seg).
  { destruct (ceil_spec (length seg)) as [G1 G2]. split; [|apply G2; nia]. destruct (ceil (length seg)); lia. }
  assert (K1 : 1 <= k) by (apply opt_size_low; [|pose proof (t_min C T)]; lia).
  assert (K2 : k <= length seg) by (pose proof (opt_size_high C (ceil (length seg)) (length seg)); lia).
  set (l := srt C (nd V) (mid_lt d) seg). assert (El : length l = length seg) by (apply Permutation_length, (t_sort C T)).
  split.
  - rewrite El. destruct l as [|y l']; [cbn [length] in El; lia|]. rewrite <- El. cbn [length chunk]. eexists. eexists. split; [reflexivity|].
    rewrite firstn_length. lia.
  - rewrite <- El. apply Forall_forall. intros s Hs.
    pose proof (chunk_lens (length l) k l K1 (le_n _)) as A. pose proof (chunk_forall (length l) k l K1) as B.
    rewrite Forall_forall in A, B. destruct (A s Hs); [left; auto|right]. split; [auto|apply B, Hs].
Qed.

Definition lined (s0 : nat) (L : list (list (nd V))) : Prop :=
  Forall (fun s => s <> [] /\ (length s = s0 \/ length s <= S * mx C) /\ (length s <= s0 \/ length s <= mx C)) L.

Lemma lined_step d seg segs : 2 <= S -> mx C < length seg -> lined (length seg) (seg :: segs) ->
  exists s r, flat_map (split_seg C S d) (seg :: segs) = s :: r /\ lined (length s) (s :: r).
Proof.
  intros S2 Hm L. assert (N : seg <> []) by (intros ->; cbn [length] in Hm; lia).
  destruct (split_seg_lens d seg N Hm) as [(s & r & E & Ek) Fk]. set (k := opt_size C _ _) in *.
  cbn [flat_map]. rewrite E. cbn [app]. eexists. eexists. split; [reflexivity|]. rewrite Ek.
  change (s :: r ++ flat_map (split_seg C S d) segs) with ((s :: r) ++ flat_map (split_seg C S d) segs). rewrite <- E.
  change (lined k (flat_map (split_seg C S d) (seg :: segs))).
  unfold lined in *. rewrite Forall_forall in *. intros y Hy. apply in_flat_map in Hy. destruct Hy as (t & Ht & Hy).
  destruct (L t Ht) as (Nt & L1 & L2). pose proof (split_seg_forall d t Nt) as F. rewrite Forall_forall in F. destruct (F y Hy) as (F1 & F2 & F3).
  split; [exact F1|].
  destruct (le_lt_dec (length t) (S * mx C)) as [Hs|Hs].
  - destruct (ceil_spec (length t)) as [_ G]. specialize (G _ Hs). split; right; nia.
  - destruct L1 as [L1|L1]; [|lia].
    assert (Hmt : mx C < length t) by lia.
    destruct (split_seg_lens d t Nt Hmt) as [_ Ft]. rewrite L1 in Ft. fold k in Ft. rewrite Forall_forall in Ft.
    rewrite L1 in Hs. pose proof (opt_rest (length seg) S2 Hs) as R. cbn zeta in R. fold k in R.
    destruct (Ft y Hy) as [Fy|[Fy1 Fy2]]; [split; left; lia|]. split; [right; lia|left; lia].
Qed.

Lemma split_segs_capacity_gen : 2 <= S -> forall ds seg segs B, lined (length seg) (seg :: segs) ->
  Forall (fun s => length s <= B) (seg :: segs) -> B <= S ^ length ds * mx C ->
  Forall (fun s => length s <= mx C) (split_segs C S ds (seg :: segs)).
Proof.
  intros S2. induction ds as [|d ds IH]; intros seg segs B L F Hb; cbn [split_segs length] in *.
  - eapply Forall_impl; [|exact F]. cbn. intros s Hs. rewrite Nat.pow_0_r in Hb. lia.
  - destruct (Nat.leb_spec (length seg) (mx C)) as [H|H].
    + eapply Forall_impl; [|exact L]. cbn. intros s (_ & _ & Hs). lia.
    + destruct (lined_step d seg segs S2 H L) as (s & r & E & L').
      change (Forall (fun s => length s <= mx C) (split_segs C S ds (flat_map (split_seg C S d) (seg :: segs)))).
      rewrite E. apply (IH s r (Nat.max (ceil B) (mx C)) L').
      * rewrite <- E. rewrite Forall_forall in *. intros y Hy. apply in_flat_map in Hy. destruct Hy as (t & Ht & Hy).
        unfold lined in L. rewrite Forall_forall in L. destruct (L t Ht) as (Nt & _).
        pose proof (split_seg_forall d t Nt) as G. rewrite Forall_forall in G. destruct (G y Hy) as (_ & G2 & _).
        pose proof (ceil_mono _ _ (F t Ht)). lia.
      * rewrite Nat.pow_succ_r', <- Nat.mul_assoc in Hb. destruct (ceil_spec B) as [_ G]. specialize (G _ Hb).
        assert (S ^ length ds <> 0) by (apply Nat.pow_nonzero; lia). nia.
Qed.

Lemma split_segs_capacity dn (store : list (nd V)) : store <> [] -> length store <= S ^ dn * mx C ->
  Forall (fun s => length s <= mx C) (split_segs C S (seq 0 dn) [store]).
Proof.
  intros N Hl. destruct (le_lt_dec (length store) (mx C)) as [H|H].
  - destruct dn as [|dn]; cbn [seq split_segs]; [constructor; auto|].
    destruct (Nat.leb_spec (length store) (mx C)); [constructor; auto|lia].
  - assert (S2 : 2 <= S).
    { destruct S as [|[|p]]; [lia| |lia]. rewrite Nat.pow_1_l in Hl. lia. }
    apply (split_segs_capacity_gen S2 (seq 0 dn) store [] (length store)); [|constructor; auto|rewrite seq_length; exact Hl].
    constructor; [auto|constructor].
Qed.
(** With more pieces per dimension than max_node_size a level still gets shorter when the
    first segment of every dimension is longer than the number of pieces *)
Fixpoint reach (p m j : nat) : nat := match j with O => p + m | Datatypes.S j => p * (reach p m j + 2) end.

Lemma opt_near count : mx C < S -> mn C + S + 2 <= ceil count -> ceil count - 2 <= opt_size C (ceil count) count.
Proof.
  intros Hp Hc. pose proof (t_min C T) as M1. pose proof (t_max C T) as M2. destruct (ceil_spec count) as [G1 G2].
  assert (Hlo : S * (ceil count - 1) < count).
  { destruct (le_lt_dec count (S * (ceil count - 1))) as [H|H]; [apply G2 in H; lia|exact H]. }
  unfold opt_size. replace (mx C - ceil count) with 0 by lia. cbn [opt_up].
  set (i := ceil count) in *. assert (Ei : exists j, i = 2 + j) by (exists (i - 2); lia). destruct Ei as [j Ei].
  assert (E : exists c, count = S * (i - 1) + c /\ 1 <= c <= S) by (exists (count - S * (i - 1)); nia). destruct E as (c & E & Hc1).
  replace (opt_down C i) with (opt_down C (2 + j)) by (f_equal; lia). replace (i - 1) with (1 + j) in * by lia.
  cbn [opt_down Nat.add]. change (Datatypes.S j) with (1 + j). destruct (Nat.ltb_spec (mn C) (1 + j)); [|lia].
  assert (Em : Nat.modulo count (1 + j) = c) by (symmetry; apply (Nat.mod_unique count (1 + j) S c); nia). rewrite Em.
  destruct (Nat.eqb_spec c 0); [lia|]. cbn [orb]. destruct (Nat.leb_spec (mn C) c); [lia|].
  replace (1 + j - 1) with j by lia. destruct (Nat.ltb_spec (mn C) j); [|lia].
  assert (Em2 : Nat.modulo count j = c + S) by (symmetry; apply (Nat.mod_unique count j S (c + S)); nia). rewrite Em2.
  destruct (Nat.eqb_spec (c + S) 0); [lia|]. cbn [orb]. destruct (Nat.leb_spec (mn C) (c + S)); [lia|lia].
Qed.

Lemma split_segs_head_far : mx C < S -> forall ds seg segs,
  match ds with [] => 2 <= length seg | _ :: r => reach S (mn C) (length r) <= length seg end ->
  exists s r, split_segs C S ds (seg :: segs) = s :: r /\ 2 <= length s.
Proof.
  intros Hp. pose proof (t_min C T) as M1. pose proof (t_max C T) as M2.
  induction ds as [|d ds IH]; intros seg segs H; cbn [split_segs]; [eauto|].
  assert (H2 : 2 <= length seg).
  { destruct (length ds); cbn [reach] in H; [lia|]. nia. }
  destruct (Nat.leb_spec (length seg) (mx C)) as [Hm|Hm]; [eauto|].
  assert (N : seg <> []) by (intros ->; cbn [length] in Hm; lia).
  destruct (split_seg_lens d seg N Hm) as [(s & r & E & Ek) _].
  change (exists s0 r0, split_segs C S ds (flat_map (split_seg C S d) (seg :: segs)) = s0 :: r0 /\ 2 <= length s0).
  cbn [flat_map]. rewrite E. cbn [app]. apply IH. rewrite Ek. destruct (ceil_spec (length seg)) as [G1 _].
  destruct ds as [|d2 ds]; cbn [length reach] in H.
  - apply opt_size_low; [|lia]. destruct (ceil (length seg)) as [|[|c]]; lia.
  - assert (Hc : reach S (mn C) (length ds) + 2 <= ceil (length seg)).
    { destruct (le_lt_dec (reach S (mn C) (length ds) + 2) (ceil (length seg))) as [|Hlt]; [auto|]. exfalso. nia. }
    assert (Hr : mn C + S <= reach S (mn C) (length ds)).
    { clear - S1. induction (length ds) as [|j IHj]; cbn [reach]; nia. }
    pose proof (opt_near (length seg) Hp ltac:(lia)). lia.
Qed.
End N.

(** *** One level of directories *)
Section L.
Variable C2 : cfg.
Hypothesis Cd : dims C2 = dims C.
Notation shape2 h := (shape C2 true 1 h 1 (mx C2)).

Lemma make_dirs_ok h lf segs : forall x, lf = Nat.eqb h 0 -> Forall nonnil segs -> Forall (fun s => length s <= mx C2) segs ->
  Forall (shape2 h) (concat segs) -> Forall (fun k : nd V => lkr k /\ nok k = false) (concat segs) -> Forall (fun z => z < x) (flat_map kaddrs (concat segs)) ->
  NoDup (flat_map kaddrs (concat segs)) ->
  exists ds x', make_dirs C x lf segs = (ds, x') /\ length ds = length segs /\ x <= x' /\
    Forall (shape2 (S h)) ds /\ Forall (fun k : nd V => lkr k /\ nok k = false) ds /\ flat_map entries ds = flat_map entries (concat segs) /\
    Permutation (flat_map addrs ds) (flat_map kaddrs (concat segs) ++ seq x (x' - x)).
Proof.
  induction segs as [|seg segs IH]; intros x Hlf Fn Fl Fs Fk Fb Nd.
  - exists [], x. cbn [make_dirs]. rewrite Nat.sub_diag. cbn [flat_map seq concat app]. repeat split; auto.
  - cbn [make_dirs concat] in *. apply Forall_cons_iff in Fn, Fl. destruct Fn as [Fn0 Fn], Fl as [Fl0 Fl].
    apply Forall_app in Fs, Fk. destruct Fs as [Fs0 Fs], Fk as [Fk0 Fk]. rewrite flat_map_app in *.
    apply Forall_app in Fb. destruct Fb as [Fb0 Fb].
    assert (Nd2 : NoDup (flat_map kaddrs (concat segs))).
    { clear - Nd. induction (flat_map kaddrs seg) as [|y l IH]; [exact Nd|]. cbn [app] in Nd. inversion Nd; auto. }
    rewrite readdr_length. set (x1 := S (x + length seg)).
    destruct (IH x1 Hlf Fn Fl Fs Fk) as (ds & x' & E & L & Hx & Sd & Kd & Ed & Pd).
    + eapply Forall_impl; [|exact Fb]. cbn. lia.
    + exact Nd2.
    + rewrite E. cbn [create_dir set_kids pack fst]. eexists. exists x'. split; [reflexivity|]. cbn [length].
      split; [auto|]. split; [lia|].
      assert (Ec : map core (readdr x seg) = map core seg) by apply core_readdr.
      assert (Eb : map nbox (readdr x seg) = map nbox seg).
      { apply (f_equal (map nbox)) in Ec. rewrite !map_map in Ec. rewrite (map_ext _ _ core_nbox seg), (map_ext _ _ core_nbox (readdr x seg)) in Ec. exact Ec. }
      split; [|split; [|split]].
      * constructor; [|exact Sd]. cbn [set_box shape]. split; [exact Hlf|]. rewrite readdr_length. split; [reflexivity|].
        split; [destruct seg; [congruence|]; cbn [length] in *; lia|]. rewrite Eb, <- Cd. split.
        -- apply fit_hull. eapply shape_boxes. exact Fs0.
        -- eapply (core_forall (shape2 h)); [intros; apply shape_core|rewrite Ec; reflexivity|exact Fs0].
      * constructor; [|exact Kd]. cbn [set_box]. split; [|reflexivity]. apply lkr_false. clear - Fk0. revert x.
        induction seg as [|k seg IH]; intros x; cbn [readdr]; [constructor|]. apply Forall_cons_iff in Fk0. destruct Fk0 as [F1 F2].
        constructor; [|auto]. destruct F1 as [F1 F3]. destruct k as [|a p lf b c ok ks]; [exact I|]. cbn [nok] in F3. subst ok. exact F1.
      * cbn [flat_map set_box entries]. rewrite Ed. f_equal.
        apply (f_equal (map entries)) in Ec. rewrite !map_map in Ec.
        rewrite (map_ext _ _ core_entries seg), (map_ext _ _ core_entries (readdr x seg)) in Ec. now rewrite !flat_map_concat_map, Ec.
      * cbn [flat_map set_box addrs]. rewrite flat_addrs, na_readdr, Pd.
        assert (Ek : flat_map kaddrs (readdr x seg) = flat_map kaddrs seg).
        { apply (f_equal (map kaddrs)) in Ec. rewrite !map_map in Ec.
          rewrite (map_ext _ _ core_kaddrs seg), (map_ext _ _ core_kaddrs (readdr x seg)) in Ec. now rewrite !flat_map_concat_map, Ec. }
        rewrite Ek. replace (x' - x) with (length seg + (1 + (x' - x1))) by (unfold x1 in *; lia).
        rewrite seq_app. cbn [seq Nat.add]. fold x1. replace (S (x + length seg)) with x1 by reflexivity. rewrite flat_map_app. perm.
Qed.


(** What a store of nodes of height [h] satisfies *)
Record stored (h : nat) (x : addr) (l : list (nd V)) : Prop := {
  d_shape : Forall (shape2 h) l;
  d_lkr : Forall (fun k : nd V => lkr k /\ nok k = false) l;
  d_nodup : NoDup (flat_map addrs l);
  d_bound : Forall (fun z => z < x) (flat_map addrs l) }.

Lemma stored_perm h x l l' : Permutation l l' -> stored h x l -> stored h x l'.
Proof.
  intros P [A B D E]. constructor.
  - eapply Permutation_Forall; eauto.
  - eapply Permutation_Forall; eauto.
  - eapply Permutation_NoDup; [|exact D]. now apply Permutation_flat_map.
  - eapply Permutation_Forall; [|exact E]. now apply Permutation_flat_map.
Qed.

Lemma stored_k h x l : stored h x l -> NoDup (flat_map kaddrs l) /\ Forall (fun z => z < x) (flat_map kaddrs l).
Proof.
  intros [_ _ D E]. apply (Permutation_NoDup (flat_addrs l)) in D. apply (Permutation_Forall (flat_addrs l)) in E.
  apply Forall_app in E. split; [|tauto]. clear E. induction (map na l) as [|y m IH]; [exact D|]. cbn [app] in D. inversion D; auto.
Qed.

Lemma pack_level_ok h x l : 1 <= spl C (length l) -> l <> [] -> stored h x l ->
  Forall (fun s => length s <= mx C2) (split_segs C (spl C (length l)) (seq 0 (dims C)) [l]) ->
  exists l' x', pack_level C x h l = (l', x') /\ stored (S h) x' l' /\ l' <> [] /\
    Permutation (flat_map entries l') (flat_map entries l) /\
    length l' = length (split_segs C (spl C (length l)) (seq 0 (dims C)) [l]).
Proof.
  intros Hs Hn Hl Hc. unfold pack_level. set (n := spl C (length l)) in *. set (segs := split_segs C n (seq 0 (dims C)) [l]) in *.
  assert (F0 : Forall nonnil [l]) by (constructor; auto).
  assert (P : Permutation (concat segs) l).
  { unfold segs. rewrite split_segs_perm by auto. cbn [concat]. now rewrite app_nil_r. }
  assert (Fn : Forall nonnil segs) by (apply split_segs_nonnil; auto).
  pose proof (stored_perm h x _ _ (Permutation_sym P) Hl) as Hl'. pose proof Hl' as [A B _ _].
  destruct (stored_k _ _ _ Hl') as [Nk Bk].
  destruct (make_dirs_ok h (Nat.eqb h 0) segs x eq_refl Fn Hc A B Bk Nk) as (ds & x' & E & L & Hx & Sd & Kd & Ed & Pd).
  exists ds, x'. split; [exact E|]. split; [|split; [|split; [|exact L]]].
  - destruct (fresh_addrs (flat_map kaddrs (concat segs)) (flat_map kaddrs (concat segs)) [] (flat_map addrs ds) x (x' - x)) as [G1 G2];
      [exact Nk|exact Bk|rewrite app_nil_r; reflexivity|exact Pd|].
    constructor; [exact Sd|exact Kd|exact G1|]. replace x' with (x + (x' - x)) by lia. exact G2.
  - intros ->. cbn [length] in L. symmetry in L. apply length_zero_iff_nil in L. rewrite L in P. cbn [concat] in P.
    apply Permutation_nil in P. auto.
  - rewrite Ed. now apply Permutation_flat_map.
Qed.

(** *** The root moves to a new object *)
Lemma lkr_set_a a' p lf b c ks a : lkr (ND a p lf b c false ks) -> lk (reset (V := V) (set_a a' (ND a p lf b c false ks))).
Proof. intros H. unfold reset. apply lk_reset_kids. cbn [set_a set_ok]. exact H. Qed.

Hypothesis Csame : mx C <= mx C2.


Lemma concat_ge segs : Forall nonnil segs -> length segs <= length (concat segs).
Proof.
  induction segs as [|s segs IH]; intros F; cbn [concat length]; [lia|]. apply Forall_cons_iff in F. destruct F as [F1 F2].
  rewrite app_length. specialize (IH F2). destruct s; [congruence|]. cbn [length]. lia.
Qed.

Lemma concat_two B segs : Forall (fun s => length s <= B) segs -> B < length (concat segs) -> 2 <= length segs.
Proof.
  destruct segs as [|s [|s2 segs]]; intros F H; cbn [concat length] in *; try lia.
  rewrite app_nil_r in H. apply Forall_cons_iff in F. lia.
Qed.

Variable r : nat.
Hypothesis r2 : r <= 1 \/ (r <= 2 /\ mx C2 = mx C).
Hypothesis spl1 : forall n : nat, mx C < n -> 1 <= spl C n.
Variable N : nat.
Hypothesis cap : forall l0 : list (nd V), mx C < length l0 <= N ->
  Forall (fun s => length s <= mx C2) (split_segs C (spl C (length l0)) (seq 0 (dims C)) [l0]).

Lemma level_step h x l : stored h x l -> mx C < length l <= N ->
  exists l' x', pack_level C x h l = (l', x') /\ stored (S h) x' l' /\ length l' <= length l /\ 1 <= length l' /\ r <= length l' /\
    Permutation (flat_map entries l') (flat_map entries l) /\
    (spl C (length l) <= mx C \/ 1 <= dims C /\ reach (spl C (length l)) (mn C) (dims C - 1) <= length l -> length l' < length l).
Proof.
  intros Hl Hlen. assert (Hn : l <> []) by (intros ->; cbn [length] in Hlen; lia).
  pose proof (spl1 _ (proj1 Hlen)) as Hs. pose proof (cap l Hlen) as Hc.
  destruct (pack_level_ok h x l Hs Hn Hl Hc) as (l' & x' & E & Sd & N' & P & L).
  exists l', x'. split; [exact E|]. split; [exact Sd|].
  set (segs := split_segs C (spl C (length l)) (seq 0 (dims C)) [l]) in *.
  assert (F0 : Forall nonnil [l]) by (constructor; auto).
  assert (Fn : Forall nonnil segs) by (apply split_segs_nonnil; auto).
  assert (Pc : Permutation (concat segs) l).
  { unfold segs. rewrite split_segs_perm by auto. cbn [concat]. now rewrite app_nil_r. }
  pose proof (Permutation_length Pc) as Lc. pose proof (concat_ge segs Fn) as Lg.
  split; [lia|]. split; [destruct l'; [congruence|cbn [length]; lia]|].
  split.
  { destruct r2 as [|[R1 R2]]; [destruct l'; [congruence|cbn [length]; lia]|].
    pose proof (concat_two (mx C2) segs Hc ltac:(lia)). lia. }
  split; [exact P|]. intros Hsm. pose proof (t_min C T). pose proof (t_max C T).
  assert (Hh : exists s0 r0, segs = s0 :: r0 /\ 2 <= length s0).
  { destruct (le_lt_dec (spl C (length l)) (mx C)) as [Hp|Hp].
    - apply (split_segs_head (spl C (length l)) Hs (seq 0 (dims C)) Hp ltac:(lia) [l] F0). exists l, []. split; [reflexivity|]. lia.
    - destruct Hsm as [|[Hd Hr]]; [lia|]. apply (split_segs_head_far (spl C (length l)) Hs Hp).
      destruct (dims C) as [|dd]; [lia|]. cbn [seq]. rewrite seq_length. replace (S dd - 1) with dd in Hr by lia. exact Hr. }
  destruct Hh as (s0 & r0 & Es & Hs0).
  rewrite L, Es. rewrite Es in Lc, Fn. cbn [concat length] in *. rewrite app_length in Lc.
  apply Forall_cons_iff in Fn. destruct Fn as [_ Fn]. pose proof (concat_ge r0 Fn). lia.
Qed.

Lemma root_done x h l : stored h x l -> length l <= mx C -> (h = 0 \/ r <= length l) ->
  let s := rehome (ST (fst (pack C (set_kids (length l) l (create_dir C x (Nat.eqb h 0))))) (S x)) in
  sinv C2 true r 1 (S h) s /\ Permutation (entries (root s)) (flat_map entries l) /\ nok (root s) = true.
Proof.
  intros [A B D F] Hle Hr. cbn [create_dir set_kids pack fst set_box]. unfold rehome. cbn [root nxt].
  set (n0 := ND x None (Nat.eqb h 0) (hull (dims C) (map nbox l)) (length l) false l).
  assert (K0 : lkr n0) by (apply lkr_false; eapply Forall_impl; [|exact B]; cbn; tauto).
  split; [|split; [|reflexivity]].
  - constructor; cbn [root nxt].
    + split; [lia|]. unfold reset. apply shape_reset_kids, shape_set_ok, shape_set_a. unfold n0. cbn [shape].
      split; [reflexivity|]. split; [reflexivity|]. split; [unfold rootlo; destruct (Nat.eqb_spec (S h) 1); lia|].
      split; [|exact A]. rewrite <- Cd. apply fit_hull. eapply shape_boxes. exact A.
    + assert (Ad : addrs (reset (set_a (S x) n0)) = S x :: flat_map addrs l) by (unfold reset; rewrite addrs_reset_kids; reflexivity).
      constructor.
      * unfold reset. rewrite npar_reset_kids. reflexivity.
      * apply lkr_set_a. exact K0.
      * rewrite Ad. constructor; [|exact D]. intros Hi. rewrite Forall_forall in F. specialize (F _ Hi). cbn in F. lia.
      * rewrite Ad. constructor; [lia|]. eapply Forall_impl; [|exact F]. cbn. lia.
  - unfold reset. rewrite entries_reset_kids. reflexivity.
Qed.

Lemma bulk_levels_ok fuel : forall x h l s, stored h x l -> length l <= N -> (h = 0 \/ r <= length l) ->
  bulk_levels C fuel x h l = Ok s ->
  exists H, sinv C2 true r 1 H s /\ Permutation (entries (root s)) (flat_map entries l) /\ nok (root s) = true.
Proof.
  induction fuel as [|fuel IH]; intros x h l s Hl HN Hr E; cbn [bulk_levels] in E;
    (destruct (Nat.ltb_spec (mx C) (length l)) as [Hgt|Hle]).
  - discriminate.
  - injection E as <-. exists (S h). apply root_done; auto.
  - destruct (level_step h x l Hl (conj Hgt HN)) as (l' & x' & Ep & Sd & L1 & L2 & L3 & P & _). rewrite Ep in E.
    destruct (IH x' (S h) l' s Sd ltac:(lia) (or_intror L3) E) as (H & Si & Pe & Nk).
    exists H. split; [exact Si|]. split; [rewrite Pe; exact P|exact Nk].
  - injection E as <-. exists (S h). apply root_done; auto.
Qed.

(** The loop ends when the number of pieces per dimension does not exceed the capacity of a node *)
Lemma bulk_levels_ends fuel : forall x h l, (forall n : nat, mx C < n <= N -> spl C n <= mx C \/ 1 <= dims C /\ reach (spl C n) (mn C) (dims C - 1) <= n) ->
  stored h x l -> length l <= N -> length l <= fuel -> exists s, bulk_levels C fuel x h l = Ok s.
Proof.
  induction fuel as [|fuel IH]; intros x h l Hs Hl HN Hf; cbn [bulk_levels];
    (destruct (Nat.ltb_spec (mx C) (length l)) as [Hgt|Hle]; [|eauto]).
  - lia.
  - destruct (level_step h x l Hl (conj Hgt HN)) as (l' & x' & Ep & Sd & L1 & L2 & L3 & P & L4). rewrite Ep.
    apply IH; auto; [lia|]. specialize (L4 (Hs _ (conj Hgt HN))). lia.
Qed.

(** The store the loader starts from *)
Lemma stored0 (es : list (box * V)) : Forall (fun e => length (fst e) = dims C) es ->
  stored 0 (length es) (readdr 0 (map (fun e => NV 0 None (fst e) (snd e)) es)) /\
  flat_map entries (readdr 0 (map (fun e => NV 0 None (fst e) (snd e)) es)) = es /\
  length (readdr 0 (map (fun e => NV 0 None (fst e) (snd e)) es)) = length es.
Proof.
  intros F. set (l := readdr 0 _).
  assert (Ll : length l = length es) by (unfold l; rewrite readdr_length; apply map_length).
  assert (G : forall (es : list (box * V)) x, Forall (fun e => length (fst e) = dims C) es -> let l := readdr x (map (fun e => NV 0 None (fst e) (snd e)) es) in
     Forall (shape2 0) l /\ Forall (fun k : nd V => lkr k /\ nok k = false) l /\ flat_map addrs l = seq x (length es) /\ flat_map entries l = es).
  { clear - Cd. induction es as [|[b v] es IH]; intros x F; cbn [map readdr length seq flat_map]; [repeat split; constructor|].
    apply Forall_cons_iff in F. destruct F as [F1 F2]. destruct (IH (S x) F2) as (I1 & I2 & I3 & I4).
    cbn [set_a addrs entries app fst snd]. split; [constructor; [cbn [shape]; cbn [fst] in F1; congruence|exact I1]|].
    split; [constructor; [split; [exact I|reflexivity]|exact I2]|]. split; [now rewrite I3|now rewrite I4]. }
  destruct (G es 0 F) as (I1 & I2 & I3 & I4). fold l in I1, I2, I3, I4. split; [|auto].
  constructor; [exact I1|exact I2|rewrite I3; apply seq_NoDup|]. rewrite I3. rewrite Forall_forall. intros z Hz. apply in_seq in Hz. lia.
Qed.

End L.

(** A piece is no longer than what is cut *)
Lemma split_segs_short S ds : 1 <= S -> forall B segs, Forall nonnil segs -> Forall (fun s => length s <= B) segs ->
  Forall (fun s => length s <= B) (split_segs C S ds segs).
Proof.
  intros HS. induction ds as [|d ds IH]; intros B segs F L; cbn [split_segs]; [exact L|].
  destruct segs as [|seg segs]; [exact L|]. destruct (Nat.leb _ _); [exact L|].
  set (M := seg :: segs) in *. clearbody M. apply IH.
  - clear IH L. induction M as [|s M IHL]; [constructor|]. cbn [flat_map]. apply Forall_cons_iff in F. destruct F as [F1 F2].
    apply Forall_app. split; [|auto]. eapply Forall_impl; [|exact (split_seg_forall S HS d s F1)]. cbn. tauto.
  - clear IH. induction M as [|s M IHL]; [constructor|]. cbn [flat_map]. apply Forall_cons_iff in F, L. destruct F as [F1 F2], L as [L1 L2].
    apply Forall_app. split; [|auto]. eapply Forall_impl; [|exact (split_seg_forall S HS d s F1)]. cbn. intros y (_ & _ & Hy). lia.
Qed.

End B.

(** *** Copies, moves and swaps *)
Section M.
Context {V : Type}.
Variable C : cfg.
Variable tg : bool.
Variable rl kl : nat.
Implicit Types (n t : nd V) (s : st V).

Lemma rehome_ok H s : sinv C tg rl kl H s ->
  sinv C tg rl kl H (rehome s) /\ entries (root (rehome s)) = entries (root s) /\ nok (root (rehome s)) = true.
Proof.
  intros [[Hh Hs] [Lp Lk Ln Lb]]. unfold rehome. cbn [root nxt].
  destruct H as [|h]; [lia|]. destruct (root s) as [|a p lf b c ok ks] eqn:Er; [contradiction|].
  unfold reset. cbn [set_a set_ok]. split; [|split; [rewrite entries_reset_kids; reflexivity|reflexivity]].
  constructor; cbn [root nxt].
  - split; [lia|]. apply shape_reset_kids. cbn [shape] in *. exact Hs.
  - assert (Ad : addrs (reset_kids (ND (nxt s) p lf b c false ks)) = nxt s :: flat_map addrs ks) by (rewrite addrs_reset_kids; reflexivity).
    cbn [addrs] in Ln, Lb. apply NoDup_cons_iff in Ln. destruct Ln as [L1 L2]. apply Forall_cons_iff in Lb. destruct Lb as [B1 B2].
    constructor.
    + rewrite npar_reset_kids. exact Lp.
    + apply lk_reset_kids. apply lkr_set_false in Lk. exact Lk.
    + rewrite Ad. constructor; [|exact L2]. intros Hi. rewrite Forall_forall in B2. specialize (B2 _ Hi). cbn in B2. lia.
    + rewrite Ad. constructor; [lia|]. eapply Forall_impl; [|exact B2]. cbn. lia.
Qed.

Lemma clone_facts off n : (forall h lo hi, shape C tg kl h lo hi n -> shape C tg kl h lo hi (clone off n)) /\
  lkr (clone off n) /\ nok (clone off n) = false /\ entries (clone off n) = entries n /\ nbox (clone off n) = nbox n /\
  npar (clone off n) = None /\ addrs (clone off n) = map (fun a => off + a) (addrs n).
Proof.
  induction n as [a p b v|a p lf b c ok ks IH] using nd_ind2.
  - cbn [clone]. split; [intros [|h] lo hi Hs; [exact Hs|contradiction]|]. repeat split.
  - cbn [clone]. split; [|split; [|split; [reflexivity|split; [|split; [reflexivity|split; [reflexivity|]]]]]].
    + intros [|h] lo hi Hs; [contradiction|]. cbn [shape] in *. destruct Hs as (E1 & E2 & E3 & E4 & E5).
      rewrite map_length. split; [exact E1|]. split; [exact E2|]. split; [exact E3|]. split.
      * rewrite map_map. erewrite map_ext_in; [exact E4|]. intros k Hk. rewrite Forall_forall in IH. apply (IH k Hk).
      * rewrite Forall_map. rewrite Forall_forall in *. intros k Hk. apply (IH k Hk). auto.
    + apply lkr_false. rewrite Forall_map. eapply Forall_impl; [|exact IH]. cbn. tauto.
    + cbn [entries]. rewrite flat_map_concat_map, map_map, <- flat_map_concat_map. clear - IH.
      induction ks as [|k ks IHk]; [reflexivity|]. apply Forall_cons_iff in IH. destruct IH as [I1 I2]. cbn [flat_map]. rewrite (IHk I2). f_equal. apply I1.
    + cbn [addrs map]. f_equal. clear - IH. induction ks as [|k ks IHk]; [reflexivity|]. apply Forall_cons_iff in IH. destruct IH as [I1 I2].
      cbn [map flat_map]. rewrite (IHk I2), map_app. f_equal. apply I1.
Qed.

Lemma copy_ok H s : sinv C tg rl kl H s ->
  sinv C tg rl kl H (copy s) /\ entries (root (copy s)) = entries (root s) /\ nok (root (copy s)) = true.
Proof.
  intros [[Hh Hs] [Lp Lk Ln Lb]]. unfold copy. cbn [root nxt].
  destruct (clone_facts (nxt s) (root s)) as (F1 & F2 & F3 & F4 & F5 & F6 & F7). specialize (F1 _ _ _ Hs).
  destruct H as [|h]; [lia|]. destruct (clone (nxt s) (root s)) as [|a p lf b c ok ks] eqn:Er; [contradiction|]. cbn [nok npar] in *. subst ok p.
  unfold reset. cbn [set_ok]. split; [|split; [rewrite entries_reset_kids; exact F4|reflexivity]].
  constructor; cbn [root nxt].
  - split; [lia|]. apply shape_reset_kids. exact F1.
  - constructor.
    + rewrite npar_reset_kids. reflexivity.
    + apply lk_reset_kids. exact F2.
    + rewrite addrs_reset_kids, F7. apply FinFun.Injective_map_NoDup; [intros x y Hxy; lia|exact Ln].
    + rewrite addrs_reset_kids, F7. rewrite Forall_map. eapply Forall_impl; [|exact Lb]. cbn. lia.
Qed.

End M.
