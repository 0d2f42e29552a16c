(** Saving and loading. *)
From Coq Require Import List ZArith Lia Bool Arith.
From Verif Require Import Base TrieModel TrieSpec TrieProofs PackModel PackSpec PackProofs PackTable.
Import ListNotations.
Open Scope Z_scope.

(** ** Bytes *)
Lemma le_bytes_length n z : length (le_bytes n z) = n.
Proof. revert z; induction n; intros; cbn; auto. Qed.
Lemma le_value_bytes n z : 0 <= z < 256 ^ Z.of_nat n -> le_value (le_bytes n z) = z.
Proof.
  revert z; induction n as [|n IH]; intros z H; [cbn in *; lia|].
  cbn [le_bytes le_value]. rewrite IH.
  - pose proof (Z.div_mod z 256). lia.
  - replace (Z.of_nat (S n)) with (Z.of_nat n + 1) in H by lia. rewrite Z.pow_add_r in H by lia.
    change (256 ^ 1) with 256 in H. split; [apply Z.div_pos; lia|]. apply Z.div_lt_upper_bound; lia.
Qed.
Lemma bv_read_app n bv xs s : length xs = n -> bv_read n bv (xs ++ s) = (xs ++ skipn n bv, s).
Proof.
  intros <-. unfold bv_read. rewrite firstn_app_exact, skipn_app_exact. reflexivity.
Qed.
Lemma firstn_exact {A} n (xs ys : list A) : length xs = n -> firstn n (xs ++ ys) = xs.
Proof. intros <-. apply firstn_app_exact. Qed.

Lemma skipn_exact {A} n (xs ys : list A) : length xs = n -> skipn n (xs ++ ys) = ys.
Proof. intros <-. apply skipn_app_exact. Qed.

(** ** Cells *)
Lemma skipn_skipn_add {A} (l : list A) : forall i j, skipn i (skipn j l) = skipn (i + j) l.
Proof.
  intros i j. revert l. induction j as [|j IH]; intros l; [rewrite Nat.add_0_r; reflexivity|].
  rewrite Nat.add_succ_r. destruct l; [destruct i; reflexivity|]. cbn [skipn]. apply IH.
Qed.
Definition slice (b : list Z) (lo hi : nat) : list Z := firstn (hi - lo) (skipn lo b).
Lemma slice_nil b lo : slice b lo lo = [].
Proof. unfold slice. rewrite Nat.sub_diag. reflexivity. Qed.
Lemma slice_app b x y z : (x <= y <= z)%nat -> slice b x y ++ slice b y z = slice b x z.
Proof.
  intros H. unfold slice. replace (z - x)%nat with ((y - x) + (z - y))%nat by lia.
  rewrite <- (firstn_skipn (y - x) (firstn (y - x + (z - y)) (skipn x b))). rewrite firstn_firstn, Nat.min_l by lia. f_equal.
  rewrite skipn_firstn_comm. replace (y - x + (z - y) - (y - x))%nat with (z - y)%nat by lia.
  rewrite skipn_skipn_add. do 2 f_equal; lia.
Qed.
Lemma slice_all b : slice b 0 (length b) = b.
Proof. unfold slice. rewrite Nat.sub_0_r. apply firstn_all. Qed.
Lemma slice_S b i z : nth_error b i = Some z -> slice b i (i + 1) = [z].
Proof.
  intros H. unfold slice. replace (i + 1 - i)%nat with 1%nat by lia.
  destruct (nth_error_split b i H) as (l1 & l2 & -> & <-). rewrite skipn_app_exact. reflexivity.
Qed.
Lemma rd_slice b i : (i < length b)%nat -> exists z, rd b i = Ok z /\ slice b i (i + 1) = [z].
Proof.
  intros H. destruct (nth_error b i) as [z|] eqn:E; [|apply nth_error_None in E; lia].
  exists z. unfold rd. rewrite E. split; auto. apply slice_S; auto.
Qed.

Lemma read_children_ok b : forall n i, (i + 2 * n <= length b)%nat -> read_children b i n = Ok (slice b i (i + 2 * n)).
Proof.
  induction n as [|n IH]; intros i H; cbn [read_children]; [rewrite Nat.mul_0_r, Nat.add_0_r, slice_nil; reflexivity|].
  destruct (rd_slice b i) as (z & -> & E1); [lia|]. cbn [bind]. destruct (rd_slice b (i + 1)) as (y & -> & E2); [lia|]. cbn [bind].
  rewrite IH by lia. cbn [bind]. f_equal. rewrite <- (slice_app b i (i + 1)), <- (slice_app b (i + 1) (i + 1 + 1)) by lia.
  rewrite E1, E2. cbn [app]. do 3 f_equal; lia.
Qed.

Section SAVE.
Context {V : Type}.
Variable T : ptraits.
Local Notation tnode := (tnode V).

(** the layout has no gaps *)
Lemma rep_total b (s : list V) n : forall lo off, rep T b s lo off n -> (off + cells n = lo + total_cells n)%nat.
Proof.
  induction n as [v cs IH] using tnode_ind2. intros lo off H. apply rep_inv in H as (z & _ & _ & _ & _ & H).
  rewrite total_cells_eq. unfold cells. cbn [nch].
  enough (G : forall i lo, reps T b s off lo i cs -> off = (lo + kcells cs)%nat) by (apply G in H; lia).
  clear H lo. induction cs as [|[c sub] cs IHc]; intros i lo H.
  - apply reps_nil_inv in H. cbn. lia.
  - apply reps_cons_inv in H as (o & _ & _ & _ & _ & R1 & R2). inversion IH as [|? ? I1 I2]; subst.
    specialize (IHc I2 _ _ R2). specialize (I1 _ _ R1). cbn [kcells fold_right snd] in *. fold (kcells cs). lia.
Qed.

(** reading the nodes of a subtree *)
Lemma read_subtree b (s : list V) n : forall lo off f, rep T b s lo off n ->
  read_nodes (node_count n + f) b lo = let* l := read_nodes f b (off + cells n) in Ok (slice b lo (off + cells n) ++ l).
Proof.
  induction n as [v cs IH] using tnode_ind2. intros lo off f H. pose proof (rep_lo _ _ _ _ _ _ H) as Hlo.
  apply rep_inv in H as (z & E1 & _ & E2 & Hb & R).
  assert (G : forall l i lo f, Forall (fun p : Z * tnode => forall lo off f, rep T b s lo off (snd p) ->
     read_nodes (node_count (snd p) + f) b lo =
       let* l := read_nodes f b (off + cells (snd p)) in Ok (slice b lo (off + cells (snd p)) ++ l)) l ->
     reps T b s off lo i l ->
     read_nodes (knodes l + f) b lo = let* r := read_nodes f b off in Ok (slice b lo off ++ r)).
  { clear. induction l as [|[c sub] l IHl]; intros i lo f HF H.
    - apply reps_nil_inv in H. subst. rewrite slice_nil. cbn. destruct (read_nodes f b off); reflexivity.
    - apply reps_cons_inv in H as (o & _ & _ & _ & _ & R1 & R2). inversion HF as [|? ? F1 F2]; subst. cbn [snd] in *.
      cbn [knodes fold_right snd]. fold (knodes l). rewrite <- Nat.add_assoc, (F1 _ _ _ R1), (IHl _ _ _ F2 R2).
      pose proof (rep_lo _ _ _ _ _ _ R1). pose proof (reps_lo _ _ _ _ _ _ _ R2).
      destruct (read_nodes f b off); cbn [bind]; auto. rewrite app_assoc, slice_app by lia. reflexivity. }
  rewrite node_count_eq. replace (S (knodes cs) + f)%nat with (knodes cs + S f)%nat by lia.
  rewrite (G cs O lo (S f) IH R). cbn [read_nodes]. replace (off <? length b)%nat with true by (symmetry; apply Nat.ltb_lt; lia).
  unfold rd at 1 2. rewrite E1, E2. cbn [deref bind].
  replace (Z.of_nat (2 * length cs) / 2) with (Z.of_nat (length cs)) by (rewrite Nat2Z.inj_mul, Z.mul_comm, Z.div_mul; lia).
  replace (Z.of_nat (length cs) <=? Z.of_nat (length b)) with true by (symmetry; apply Z.leb_le; lia).
  rewrite Nat2Z.id, read_children_ok by lia. cbn [bind]. unfold cells. cbn [nch].
  replace (off + (2 + 2 * length cs))%nat with (off + 2 + 2 * length cs)%nat by lia.
  destruct (read_nodes f b (off + 2 + 2 * length cs)); cbn [bind]; auto. f_equal.
  rewrite <- (slice_app b lo off (off + 2 + 2 * length cs)) by lia. rewrite <- app_assoc. f_equal.
  rewrite <- (slice_app b off (off + 1) (off + 2 + 2 * length cs)) by lia. rewrite (slice_S _ _ _ E1). cbn [app]. f_equal.
  rewrite <- (slice_app b (off + 1) (off + 1 + 1) (off + 2 + 2 * length cs)) by lia. rewrite (slice_S _ _ _ E2). cbn [app]. do 2 f_equal.
  f_equal. lia.
Qed.

Lemma traverse_packed_ok (m : pmap V) t : packs T m t -> traverse_packed_buffer (pk m) = Ok (pk m).
Proof.
  intros (o & E & R & L & _). unfold traverse_packed_buffer. unfold rd. rewrite E. cbn [deref bind].
  pose proof (count_cells _ _ _ _ _ _ R). unfold cells in *.
  replace (length (pk m)) with (node_count t + (length (pk m) - node_count t))%nat by lia.
  rewrite (read_subtree _ _ _ _ _ _ R). unfold cells. rewrite <- L.
  destruct (length (pk m) - node_count t)%nat eqn:D; [lia|]. cbn [read_nodes].
  rewrite Nat.ltb_irrefl. cbn [bind]. rewrite app_nil_r. f_equal.
  change (Z.of_nat o :: slice (pk m) 1 (length (pk m))) with ([Z.of_nat o] ++ slice (pk m) (0 + 1) (length (pk m))).
  rewrite <- (slice_S _ _ _ E). rewrite slice_app by lia. apply slice_all.
Qed.

(** ** Values *)
Lemma read_variable_ok F (vs : list V) : svar F = true -> Forall (handles F) vs -> forall bv rest,
  read_variable F (length vs) bv (write_variable F vs ++ rest) = Ok (vs, rest).
Proof.
  intros Hv. induction 1 as [|v vs (_ & H & Hl) Hs IH]; intros bv rest; [reflexivity|].
  rewrite Hv in Hl. cbn [length read_variable write_variable flat_map]. rewrite <- !app_assoc.
  rewrite bv_read_app by apply le_bytes_length. rewrite firstn_exact by apply le_bytes_length.
  rewrite le_value_bytes by (change (256 ^ Z.of_nat 4) with (2 ^ 32); lia).
  rewrite H. cbn [bind]. fold (write_variable F vs). rewrite IH. reflexivity.
Qed.
Lemma write_fixed_ok F (vs : list V) : svar F = false -> Forall (handles F) vs -> write_fixed_values F vs = Ok (flat_map (swrite F) vs).
Proof.
  intros Hv. induction 1 as [|v vs (_ & H & Hl) Hs IH]; [reflexivity|]. rewrite Hv in Hl.
  cbn [write_fixed_values]. rewrite Hl, Z.eqb_refl, IH. reflexivity.
Qed.
Lemma read_fixed_ok F (vs : list V) : svar F = false -> Forall (handles F) vs -> forall rest,
  read_fixed_values F (length vs) (flat_map (swrite F) vs ++ rest) = Ok (vs, rest).
Proof.
  intros Hv. induction 1 as [|v vs (_ & H & Hl) Hs IH]; intros rest; [reflexivity|]. rewrite Hv in Hl.
  cbn [length read_fixed_values flat_map]. rewrite <- app_assoc, <- Hl, H. cbn [bind]. rewrite IH. reflexivity.
Qed.

(** the value section, the blob section, and the whole stream *)
Definition value_section (F : serializer V) (vs : list V) : list Z :=
  le_bytes 2 (if svar F then 1 else 0) ++ le_bytes 4 (Z.of_nat (length vs)) ++
  (if svar F then write_variable F vs else le_bytes 4 (ssize F) ++ flat_map (swrite F) vs).
Definition blob_section (c1 w : Z) (cells : list Z) (c2 : Z) : list Z :=
  [c1] ++ [w] ++ le_bytes 8 (Z.of_nat (length cells)) ++ flat_map (le_bytes (pbytes T)) cells ++ [c2].

Lemma save_ok F (m : pmap V) t : packs T m t -> Forall (handles F) (store m) ->
  save_state T F m = Ok (value_section F (store m) ++ blob_section 255 (Z.of_nat (pbytes T)) (pk m) 255).
Proof.
  intros HP HF. unfold save_state. rewrite (traverse_packed_ok _ _ HP). unfold value_section, blob_section.
  destruct (svar F) eqn:Hv; cbn [bind].
  - rewrite <- !app_assoc. reflexivity.
  - rewrite (write_fixed_ok F _ Hv HF). cbn [bind]. rewrite <- !app_assoc. reflexivity.
Qed.

Lemma load_values_ok F (vs : list V) rest bv0 : sizes_ok F -> Forall (handles F) vs ->
  Z.of_nat (length vs) < 2 ^ 32 -> (length vs <= length rest)%nat ->
  exists bv, load_values F bv0 (value_section F vs ++ rest) = Ok (vs, bv, rest).
Proof.
  intros HS HF Hc Hl. unfold load_values, value_section. rewrite <- !app_assoc.
  rewrite bv_read_app by apply le_bytes_length. rewrite firstn_exact by apply le_bytes_length.
  rewrite le_value_bytes by (destruct (svar F); change (256 ^ Z.of_nat 2) with (2 ^ 16); lia).
  replace (negb (Bool.eqb (Z.odd (if svar F then 1 else 0)) (svar F))) with false by (destruct (svar F); reflexivity).
  rewrite bv_read_app by apply le_bytes_length. rewrite firstn_exact by apply le_bytes_length.
  rewrite le_value_bytes by (change (256 ^ Z.of_nat 4) with (2 ^ 32); lia).
  match goal with |- context [Z.of_nat (length ?x) <? _] => replace (Z.of_nat (length x) <? Z.of_nat (length vs)) with false end.
  2:{ symmetry. apply Z.ltb_ge. rewrite !app_length. lia. }
  rewrite Nat2Z.id. destruct (svar F) eqn:Hv.
  - rewrite read_variable_ok by auto. cbn [bind]. eauto.
  - rewrite <- app_assoc, bv_read_app by apply le_bytes_length. rewrite firstn_exact by apply le_bytes_length.
    rewrite le_value_bytes by (change (256 ^ Z.of_nat 4) with (2 ^ 32); apply HS; auto).
    rewrite Z.eqb_refl. cbn [negb]. rewrite read_fixed_ok by auto. cbn [bind]. eauto.
Qed.

Lemma read_blob_ok : forall cells bv s, (forall z, In z cells -> 0 <= z < pmod T) ->
  exists bv', read_blob T (length cells) bv (flat_map (le_bytes (pbytes T)) cells ++ s) = (cells, (bv', s)).
Proof.
  induction cells as [|c cells IH]; intros bv s H; [cbn; eauto|]. cbn [length read_blob flat_map]. rewrite <- app_assoc.
  rewrite bv_read_app by apply le_bytes_length.
  destruct (IH (le_bytes (pbytes T) c ++ skipn (pbytes T) bv) s) as (bv' & ->); [cbn in *; auto|]. exists bv'.
  rewrite firstn_exact by apply le_bytes_length. rewrite le_value_bytes; auto.
  specialize (H c (or_introl eq_refl)). unfold pmod in H. rewrite Z.pow_mul_r in H by lia. exact H.
Qed.

(** what loading makes of a blob section with any check bytes *)
Lemma load_blob_ok c1 w cells c2 total bv : 0 <= Z.of_nat (length cells) < 2 ^ 64 -> (length cells <= total)%nat ->
  Forall (in_range T) cells ->
  load_blob T total bv (blob_section c1 w cells c2) =
    if negb (c1 =? 255) then Throw E_invalid_arg
    else if negb (w =? Z.of_nat (pbytes T)) then Throw E_invalid_arg
    else if negb (c2 =? 255) then Throw E_invalid_arg
    else let* _ := traverse_packed_buffer cells in Ok cells.
Proof.
  intros Hn Ht Hr. unfold load_blob, blob_section.
  rewrite bv_read_app by reflexivity. rewrite firstn_exact by reflexivity. cbn [le_value].
  rewrite Z.mul_0_r, Z.add_0_r. destruct (negb (c1 =? 255)); auto.
  rewrite bv_read_app by reflexivity. rewrite firstn_exact by reflexivity. cbn [le_value].
  rewrite Z.mul_0_r, Z.add_0_r. destruct (negb (w =? Z.of_nat (pbytes T))); auto.
  rewrite bv_read_app by apply le_bytes_length. rewrite firstn_exact by apply le_bytes_length.
  rewrite le_value_bytes by (change (256 ^ Z.of_nat 8) with (2 ^ 64); lia).
  replace (Z.of_nat total <? Z.of_nat (length cells)) with false by (symmetry; apply Z.ltb_ge; lia).
  rewrite Nat2Z.id.
  match goal with |- context [read_blob T (length cells) ?b _] => destruct (read_blob_ok cells b [c2]) as (bv' & ->) end.
  { rewrite Forall_forall in Hr. exact Hr. }
  rewrite <- (app_nil_r [c2]), bv_read_app by reflexivity. rewrite firstn_exact by reflexivity. cbn [le_value].
  rewrite Z.mul_0_r, Z.add_0_r. reflexivity.
Qed.

Lemma blob_length c1 w cells c2 : (1 <= pbytes T)%nat -> (length cells <= length (blob_section c1 w cells c2))%nat.
Proof.
  intros H. unfold blob_section. rewrite !app_length.
  enough (length cells <= length (flat_map (le_bytes (pbytes T)) cells))%nat by lia.
  clear c1 w c2. induction cells as [|c l IH]; cbn [flat_map length]; [lia|]. rewrite app_length, le_bytes_length. lia.
Qed.
End SAVE.

(** ** The serializers of the library *)
Lemma numeric_handles size z : 0 <= z < 256 ^ Z.of_nat size -> handles (numeric_serializer size) z.
Proof.
  intros H. split; [|split].
  - cbn [swrite numeric_serializer]. clear H. revert z. induction size; intros z; cbn [le_bytes]; constructor; auto. apply Z.mod_pos_bound; lia.
  - intros rest. cbn [sread swrite numeric_serializer]. unfold numeric_read. rewrite app_length, le_bytes_length.
    replace (size + length rest <? size)%nat with false by (symmetry; apply Nat.ltb_ge; lia).
    rewrite firstn_exact by apply le_bytes_length. rewrite le_value_bytes by auto.
    rewrite skipn_exact by apply le_bytes_length. reflexivity.
  - cbn. rewrite le_bytes_length. reflexivity.
Qed.
Lemma string_handles (v : list Z) : Forall (fun x => 0 <= x < 256) v -> Z.of_nat (length v) < 2 ^ 32 -> handles string_serializer v.
Proof.
  intros Hb H. split; [exact Hb|]. split; [|exact H]. intros rest. cbn [sread swrite string_serializer].
  replace (Z.of_nat (length (v ++ rest)) <? Z.of_nat (length v)) with false by (symmetry; apply Z.ltb_ge; rewrite app_length; lia).
  rewrite Nat2Z.id, firstn_app_exact, skipn_app_exact. reflexivity.
Qed.
Lemma numeric_seq_handles size (v : list Z) : (0 < size)%nat -> Forall (fun z => 0 <= z < 256 ^ Z.of_nat size) v ->
  Z.of_nat (size * length v) < 2 ^ 32 -> handles (numeric_seq_serializer size) v.
Proof.
  intros Hs Hv Hl.
  assert (L : forall l, length (flat_map (le_bytes size) l) = (size * length l)%nat).
  { induction l; cbn [flat_map length]; [lia|]. rewrite app_length, le_bytes_length. lia. }
  split; [|split].
  - cbn [swrite numeric_seq_serializer]. clear Hl Hv. apply Forall_forall. intros x Hx. apply in_flat_map in Hx as (z & _ & Hx).
    revert z Hx. induction size as [|n IH]; intros z Hx; cbn [le_bytes] in Hx; [destruct Hx|]. destruct Hx as [<-|Hx]; [apply Z.mod_pos_bound; lia|].
    destruct n; [destruct Hx|]. eapply IH; eauto. lia. intros l. clear. induction l; cbn [flat_map length]; [lia|]. rewrite app_length, le_bytes_length. lia.
  - intros rest. cbn [sread swrite numeric_seq_serializer].
    replace (Z.of_nat (length (flat_map (le_bytes size) v ++ rest)) <? Z.of_nat (length (flat_map (le_bytes size) v))) with false
      by (symmetry; apply Z.ltb_ge; rewrite app_length; lia).
    rewrite L. replace (Z.of_nat (size * length v) / Z.of_nat size) with (Z.of_nat (length v))
      by (rewrite Nat2Z.inj_mul, Z.mul_comm, Z.div_mul; lia).
    rewrite Nat2Z.id. clear Hl. induction Hv as [|z v Hz Hv IH]; [reflexivity|].
    cbn [length numeric_seq_read flat_map]. rewrite <- app_assoc.
    destruct (numeric_handles size z Hz) as (_ & H & _). specialize (H (flat_map (le_bytes size) v ++ rest)).
    cbn [sread swrite numeric_serializer] in H. rewrite le_bytes_length in H. rewrite H. cbn [bind].
    rewrite IH. reflexivity.
  - cbn [svar numeric_seq_serializer swrite]. rewrite L. exact Hl.
Qed.
