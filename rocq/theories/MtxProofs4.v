(** Proofs about multi_type_matrix, fourth part: copy, resize, transpose. *)
From Coq Require Import List ZArith Lia Bool.
From Verif Require Import Base MtvModel MtvModel2 MtvSpec MtvProofs MtvWrap MtvBridge MtvBridge2
  MtxModel MtxSpec MtxProofs MtxProofs2 MtxProofs3.
Import ListNotations.

Section P.
Set Default Proof Using "All".
Context {V : Type}.
Variable cat : V -> nat.
Variable kind : nat -> option mty.
Notation st := (@MtvModel.st V).
Notation eblk := (@MtvModel.eblk V).
Notation mtx := (@MtxModel.mtx V).
Notation good := (good cat).
Notation rch := (@reach V cat nm (fun v => v) (fun _ => true) anyop).
Notation mgood := (mgood cat).
Notation plain := (plain cat kind).
Notation cells_set := (cells_set cat).

Lemma nth_skip {A} n k (l : list A) : nth_error (skipn n l) k = nth_error l (n + k).
Proof using. revert l. induction n as [|n IH]; intros [|x l]; cbn [skipn Nat.add nth_error]; auto. now destruct k. Qed.

(** [m'] is [m] with the cells where [f] is [Some] replaced. *)
Definition upd (m m' : mtx) (f : nat -> nat -> option (res (option V))) : Prop :=
  mgood m' /\ rows m' = rows m /\ cols m' = cols m /\
  forall i j, i < rows m -> j < cols m -> mget i j m' = match f i j with Some x => x | None => mget i j m end.

Lemma upd_refl m : mgood m -> upd m m (fun _ _ => None).
Proof. intros G. split; auto. Qed.

Lemma upd_trans m1 m2 m3 f g : upd m1 m2 f -> upd m2 m3 g ->
  upd m1 m3 (fun i j => match g i j with Some x => Some x | None => f i j end).
Proof.
  intros (G2 & R2 & C2 & H2) (G3 & R3 & C3 & H3). split; [auto|]. split; [congruence|]. split; [congruence|].
  intros i j Hi Hj. rewrite H3 by congruence. destruct (g i j); auto.
Qed.

Lemma upd_ext m m' f g : upd m m' f -> (forall i j, i < rows m -> j < cols m -> f i j = g i j) -> upd m m' g.
Proof. intros (G & R & C & H) E. split; [auto|]. split; [auto|]. split; [auto|]. intros i j Hi Hj. rewrite H, E; auto. Qed.

(** Cells in the column [j], rows [i] to [i + n - 1]. *)
Lemma set_upd (m m' : mtx) i j n x : i + n <= rows m -> j < cols m -> length x = n ->
  cells_set m m' (rows m * j + i) n x ->
  upd m m' (fun a b => if ((b =? j) && ((i <=? a) && (a <? i + n)))
                       then option_map Ok (nth_error x (a - i)) else None).
Proof.
  intros Hi Hj Hx (G & R & C & H). split; [auto|]. split; [auto|]. split; [auto|].
  intros a b Ha Hb. rewrite H. cbn zeta.
  destruct (Nat.eqb_spec b j) as [->|Nj]; cbn [andb].
  - destruct (Nat.leb_spec (rows m * j + i) (rows m * j + a)), (Nat.leb_spec i a); try lia; cbn [andb]; [|reflexivity].
    destruct (Nat.ltb_spec (rows m * j + a) (rows m * j + i + n)), (Nat.ltb_spec a (i + n)); try lia; [|reflexivity].
    replace (rows m * j + a - (rows m * j + i)) with (a - i) by lia.
    destruct (nth_error x (a - i)) eqn:E; [reflexivity|]. apply nth_error_None in E. lia.
  - destruct (Nat.leb_spec (rows m * j + i) (rows m * b + a)); cbn [andb]; [|reflexivity].
    destruct (Nat.ltb_spec (rows m * b + a) (rows m * j + i + n)); [|reflexivity].
    exfalso. assert (b < j \/ j < b) as [L|L] by lia.
    + assert (rows m * b + rows m <= rows m * j) by nia. lia.
    + assert (rows m * j + rows m <= rows m * b) by nia. lia.
Qed.

(** ** copy(src) *)

Lemma plain_in (m : mtx) r c : plain r c m -> mgood m ->
  forall n j v, n <= rows m -> n <= r -> j < cols m -> j < c ->
  In (Some v) (firstn n (skipn (rows m * j) (flat (store m)))) -> kind (cat v) <> None /\ kind (cat v) <> Some KInt.
Proof.
  intros S G n j v Hi Hr Hj Hc Hv. apply (in_map Ok) in Hv.
  replace (rows m * j) with (rows m * j + 0) in Hv by lia. rewrite (column_cells cat kind) in Hv by (auto; lia).
  apply in_map_iff in Hv as (a & E & Ha). apply in_seq in Ha. apply (S a j v); auto. lia.
Qed.

Lemma copy_cols_spec (src : mtx) r c : mgood src -> plain r c src -> 0 < r -> r <= rows src -> c <= cols src ->
  forall k j m ps pd, mgood m -> r <= rows m -> c <= cols m -> j + k <= c ->
  exists m', copy_cols cat kind (seq j k) r m src ps pd = Ok m' /\
    upd m m' (fun a b => if ((j <=? b) && (b <? j + k)) && (a <? r) then Some (mget a b src) else None).
Proof.
  intros Gs Ps Hr Hrs Hcs k. induction k as [|k IH]; intros j m ps pd Gm Hrm Hcm Hj.
  { exists m. split; [reflexivity|]. eapply upd_ext; [apply upd_refl; auto|].
    intros a b _ _. cbn beta. destruct (Nat.leb_spec j b), (Nat.ltb_spec b (j + 0)); try lia; reflexivity. }
  cbn [seq copy_cols].
  destruct (mpos_spot cat kind m (Some (fst pd)) 0 j Gm ltac:(lia) ltac:(lia)) as (di & dk & dz & dd & Ed & Sd).
  destruct (mpos_spot cat kind src (Some (fst ps)) 0 j Gs ltac:(lia) ltac:(lia)) as (si & sk & sz & sd & Es & Ss).
  rewrite Ed, Es. cbn [bind].
  assert (rows m * j + rows m <= rows m * cols m) as L1 by nia.
  assert (rows src * j + rows src <= rows src * cols src) as L2 by nia.
  rewrite Nat.add_0_r in Sd, Ss.
  destruct (copy_rows_spec cat kind (store src) (mgood_good cat kind src Gs) (S r) (store m) _ _ _ _ _ _ _ _ _ _ r
              Ss (mgood_good cat kind m Gm) Sd ltac:(lia) ltac:(lia)) as (s' & o & E & G' & F & R & O).
  { rewrite (proj2 Gs). lia. } { rewrite (proj2 Gm). lia. }
  { intros v Hv. apply (plain_in src r c Ps Gs r j v); auto; lia. }
  rewrite E. cbn [bind].
  assert (upd m (with_store m s') (fun a b => if (b =? j) && (a <? r) then Some (mget a b src) else None)) as U.
  { set (x := firstn r (skipn (rows src * j) (flat (store src)))) in *.
    assert (length x = r) as Lx.
    { unfold x. rewrite firstn_length, skipn_length, (len_store cat kind src Gs). lia. }
    assert (cells_set m (with_store m s') (rows m * j + 0) r x) as CS.
    { apply (cells_of cat kind); auto; rewrite ?Nat.add_0_r; auto. rewrite (proj2 Gm). lia. }
    apply set_upd in CS; auto; [|lia]. eapply upd_ext; [exact CS|].
    intros a b Ha Hb. cbn beta. destruct (Nat.eqb_spec b j) as [->|]; cbn [andb]; [|reflexivity].
    cbn [Nat.leb andb]. change (0 + r) with r. destruct (Nat.ltb_spec a r); [|reflexivity].
    rewrite Nat.sub_0_r.
    pose proof (column_cells cat kind src 0 r j Gs ltac:(lia) ltac:(lia)) as CC.
    rewrite Nat.add_0_r in CC. fold x in CC. 
    destruct (nth_error x a) as [y|] eqn:Ea; [|apply nth_error_None in Ea; lia].
    cbn [option_map]. f_equal.
    apply (map_nth_error Ok) in Ea. rewrite CC in Ea.
    erewrite map_nth_error in Ea; [injection Ea as Ea; symmetry; exact Ea|].
    rewrite nth_error_nth' with (d := 0) by (rewrite seq_length; lia). now rewrite seq_nth by lia. }
  destruct o as [[qs qd]|].
  - destruct U as (GU & RU & CU & HU).
    destruct (IH (S j) (with_store m s') qs qd GU ltac:(lia) ltac:(lia) ltac:(lia)) as (m' & E' & U').
    exists m'. split; [exact E'|].
    eapply upd_ext; [eapply upd_trans; [|exact U']; split; [exact GU|]; split; [exact RU|]; split; [exact CU|exact HU]|].
    intros a b Ha Hb. cbn beta.
    destruct (Nat.leb_spec (S j) b), (Nat.leb_spec j b), (Nat.ltb_spec b (S j + k)), (Nat.ltb_spec b (j + S k)),
      (Nat.eqb_spec b j), (Nat.ltb_spec a r); cbn [andb]; try lia; reflexivity.
  - specialize (O eq_refl). rewrite (proj2 Gm) in O.
    assert (k = 0) as ->.
    { assert (rows m * (j + 1) >= rows m * cols m) by lia. assert (cols m <= j + 1) by nia. lia. }
    exists (with_store m s'). split; [reflexivity|]. eapply upd_ext; [exact U|].
    intros a b Ha Hb. cbn beta.
    destruct (Nat.leb_spec j b), (Nat.ltb_spec b (j + 1)), (Nat.eqb_spec b j), (Nat.ltb_spec a r); cbn [andb]; try lia; reflexivity.
Qed.

Lemma mempty_eq (m : mtx) : mgood m -> mempty m = (rows m * cols m =? 0).
Proof. intros [_ C]. unfold mempty, size. now rewrite C. Qed.

Lemma mcopy_spec (src m : mtx) : mgood src -> mgood m ->
  plain (Nat.min (rows m) (rows src)) (Nat.min (cols m) (cols src)) src ->
  exists m', mcopy cat kind src m = Ok m' /\
    upd m m' (fun a b => if (a <? rows src) && (b <? cols src) then Some (mget a b src) else None).
Proof.
  intros Gs Gm P. unfold mcopy. rewrite (mempty_eq src Gs), (mempty_eq m Gm).
  destruct (Nat.eqb_spec (rows m * cols m) 0) as [Zm|Zm]; cbn [orb].
  { exists m. split; [reflexivity|]. split; [auto|]. split; [auto|]. split; [auto|].
    intros i j Hi Hj. apply Nat.eq_mul_0 in Zm. lia. }
  destruct (Nat.eqb_spec (rows src * cols src) 0) as [Zs|Zs].
  { exists m. split; [reflexivity|]. eapply upd_ext; [apply upd_refl; auto|].
    intros a b _ _. cbn beta. apply Nat.eq_mul_0 in Zs.
    destruct (Nat.ltb_spec a (rows src)), (Nat.ltb_spec b (cols src)); cbn [andb]; try reflexivity. lia. }
  assert (0 < rows m /\ 0 < cols m) as [? ?] by (split; apply Nat.neq_0_lt_0; intros X; apply Zm; rewrite X; lia).
  assert (0 < rows src /\ 0 < cols src) as [? ?] by (split; apply Nat.neq_0_lt_0; intros X; apply Zs; rewrite X; lia).
  destruct (mpos_spot cat kind m None 0 0 Gm ltac:(lia) ltac:(lia)) as (di & dk & dz & dd & Ed & Sd).
  destruct (mpos_spot cat kind src None 0 0 Gs ltac:(lia) ltac:(lia)) as (si & sk & sz & sd & Es & Ss).
  rewrite Ed, Es. cbn [bind].
  destruct (copy_cols_spec src _ _ Gs P ltac:(lia) ltac:(lia) ltac:(lia) (Nat.min (cols m) (cols src)) 0 m (si, sk) (di, dk))
    as (m' & E & U); auto; try lia.
  exists m'. split; [exact E|]. eapply upd_ext; [exact U|]. intros a b Ha Hb. cbn beta. cbn [Nat.leb andb].
  destruct (Nat.ltb_spec b (0 + Nat.min (cols m) (cols src))), (Nat.ltb_spec a (Nat.min (rows m) (rows src))),
    (Nat.ltb_spec a (rows src)), (Nat.ltb_spec b (cols src)); cbn [andb]; try lia; reflexivity.
Qed.

(** ** copy(rows, cols, begin, end) *)

Lemma copy_vals_spec r c : 0 < r -> forall k j vs p m, one_type cat vs -> length vs = r * k ->
  mgood m -> r <= rows m -> j + k <= c -> c <= cols m ->
  exists m', copy_vals cat (seq j k) r vs p m = Ok m' /\
    upd m m' (fun a b => if ((j <=? b) && (b <? j + k)) && (a <? r)
                         then option_map (fun v => Ok (Some v)) (nth_error vs (r * (b - j) + a)) else None).
Proof.
  intros Hr k. induction k as [|k IH]; intros j vs p m Ho Hl Gm Hrm Hj Hc.
  { exists m. split; [reflexivity|]. eapply upd_ext; [apply upd_refl; auto|].
    intros a b _ _. cbn beta. destruct (Nat.leb_spec j b), (Nat.ltb_spec b (j + 0)); try lia; reflexivity. }
  cbn [seq copy_vals].
  destruct (mpos_spot cat kind m (Some (fst p)) 0 j Gm ltac:(lia) ltac:(lia)) as (di & dk & dz & dd & Ed & Sd).
  rewrite Ed. cbn [bind fst].
  assert (rows m * j + rows m <= rows m * cols m) as L1 by nia.
  assert (length (firstn r vs) = r) as Lf by (rewrite firstn_length; nia).
  destruct (set_range_cells cat kind m (Some (Some di)) (rows m * j + 0) (firstn r vs) Gm) as (s' & b & E & CS).
  { apply (sub_one cat kind vs); auto. intros v. apply first_in. }
  { intros X. rewrite X in Lf. cbn in Lf. lia. }
  { rewrite (proj2 Gm). lia. }
  unfold get_pos. rewrite E. cbn [bind].
  rewrite Lf in CS. apply set_upd in CS; auto; [|lia|now rewrite map_length].
  destruct (IH (S j) (skipn r vs) (b, snd (di, dk)) (with_store m s')) as (m' & E' & U').
  { apply (sub_one cat kind vs); auto. intros v. apply skip_in. }
  { rewrite skipn_length. lia. } { apply CS. } { exact Hrm. } { lia. } { exact Hc. }
  exists m'. split; [exact E'|]. eapply upd_ext; [eapply upd_trans; [exact CS|exact U']|].
  intros a b' Ha Hb. cbn beta. change (0 <=? a) with true. cbn [andb]. change (0 + r) with r.
  destruct (Nat.leb_spec (S j) b'), (Nat.leb_spec j b'), (Nat.ltb_spec b' (S j + k)), (Nat.ltb_spec b' (j + S k)),
      (Nat.eqb_spec b' j), (Nat.ltb_spec a r); cbn [andb]; try lia; try reflexivity.
  - assert (nth_error (skipn r vs) (r * (b' - S j) + a) = nth_error vs (r * (b' - j) + a)) as ->.
    { assert (r + (r * (b' - S j) + a) = r * (b' - j) + a) as <- by nia.
      apply nth_skip. }
    destruct (nth_error vs _) eqn:X; [reflexivity|]. cbn [option_map].
    apply nth_error_None in X. exfalso. assert (b' - j <= k) by lia. nia.
  - subst b'. rewrite Nat.sub_diag, Nat.mul_0_r, Nat.sub_0_r. cbn [Nat.add].
    rewrite nth_error_map.
    assert (nth_error (firstn r vs) a = nth_error vs a) as ->.
    { rewrite <- (firstn_skipn r vs) at 2. rewrite nth_error_app1; [reflexivity|lia]. }
    destruct (nth_error vs a); reflexivity.
Qed.
End P.
