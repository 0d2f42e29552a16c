(** Theorems about multi_type_matrix (C54 - C57, C72). *)
From Coq Require Import List ZArith Lia Bool.
From Verif Require Import Base MtvModel MtvModel2 MtvSpec MtvProofs MtvWrap MtvBridge MtvBridge2 MtvProps
  MtxModel MtxSpec MtxProofs MtxProofs2 MtxProofs3 MtxProofs4 MtxProofs5.
Import ListNotations.

Section P.
Set Default Proof Using "All".
Context {V : Type}.
Variable cat : V -> nat.
Variable kind : nat -> option mty.
Notation st := (@MtvModel.st V).
Notation mtx := (@MtxModel.mtx V).
Notation mreach := (mreach cat kind).
Notation mgood := (mgood cat).
Notation plain := (plain cat kind).
Notation rch := (@reach V cat nm (fun v => v) (fun _ => true) anyop).

Lemma upd_cells (m m' : mtx) f : upd cat m m' f ->
  cells m' (rows m) (cols m) (fun i j => match f i j with Some x => x | None => mget i j m end).
Proof. intros (_ & R & C & H). split; [auto|]. split; [auto|]. exact H. Qed.

Lemma cells_ext (m : mtx) r c f g : cells m r c f -> (forall i j, i < r -> j < c -> f i j = g i j) -> cells m r c g.
Proof. intros (R & C & H) E. split; [auto|]. split; [auto|]. intros i j Hi Hj. rewrite H, E; auto. Qed.

Lemma run_cells (m m' : mtx) i j n x : length x = n -> cells_set cat m m' (rows m * j + i) n x ->
  cells m' (rows m) (cols m) (fun a b =>
    if in_run (rows m) i j n a b
    then match nth_error x (rows m * b + a - (rows m * j + i)) with Some y => Ok y | None => Undef end
    else mget a b m).
Proof. intros Hx (G & R & C & H). split; [auto|]. split; [auto|]. intros a b Ha Hb. rewrite H. reflexivity. Qed.

Lemma rch_shows (s : st) : rch s -> shows s (flat s).
Proof. intros R. apply (shows_flat cat). now apply (rch_good cat kind). Qed.

Ltac good_of H := let G := fresh "G" in pose proof (mreach_good cat kind _ H) as G.

(** ** C54: reading and writing cells *)

Theorem C54_read : forall m i j, mreach m -> i < rows m -> j < cols m ->
  exists x, mget i j m = Ok x /\
    mtype kind i j m = match kind_of cat kind x with Some k => Ok k | None => Throw E_type end.
Proof.
  intros m i j H Hi Hj. good_of H. destruct (mget_some cat kind m i j G Hi Hj) as (x & E & _).
  exists x. split; [exact E|]. rewrite (mtype_eq cat kind m i j x G E). destruct x as [v|]; [|reflexivity].
  cbn [kind_of option_map]. unfold to_mtm. destruct (kind (cat v)); reflexivity.
Qed.

(** size() gives the dimensions that the other theorems speak of *)
Theorem C54_size : forall (m : mtx) r c f, cells m r c f -> msize m = (r, c).
Proof. intros m r c f (<- & <- & _). reflexivity. Qed.

Theorem C54_set : forall m i j v, mreach m -> i < rows m -> j < cols m ->
  exists m', mset cat i j v m = Ok m' /\ mreach m' /\
    cells m' (rows m) (cols m) (fun a b => if (a =? i) && (b =? j) then Ok (Some v) else mget a b m).
Proof.
  intros m i j v H Hi Hj. good_of H. destruct (mset_upd cat kind m i j v G Hi Hj) as (m' & E & U).
  exists m'. split; [exact E|]. split; [eapply (m_step _ _ m (MSet i j v)); eauto; exact I|].
  eapply cells_ext; [apply upd_cells; exact U|]. intros a b Ha Hb. cbn beta.
  rewrite andb_comm. now destruct (_ && _).
Qed.

Lemma in_block_position (s : st) b p : good cat s -> in_block s b p ->
  exists z, pos_at b s = Ok z /\ z <= p /\ position None p s = Ok (b, p - z).
Proof.
  intros G (c & z & n & Eb & Hz). unfold block in Eb. destruct (nth_error (bl s) b) as [bb|] eqn:En; [|discriminate].
  injection Eb as _ <- <-. exists (bp bb). split.
  { unfold pos_at, bat. rewrite En. reflexivity. }
  split; [lia|]. apply (pobj_position cat); auto. left.
  apply nth_error_split in En as (q & t & E & L). exists q, bb, t. pose proof G as (W & _). rewrite E in W.
  apply (wfl_at cat kind) in W as (Ep & _). cbn in Ep. repeat split; auto; lia.
Qed.

(** What the calls with a position object have in common. *)
Lemma at_result (m : mtx) i j s' b : good cat s' -> in_block s' b (rows m * j + i) ->
  exists z, pos_at b s' = Ok z /\ (z <=? rows m * j + i) = true /\
    mposition None i j (with_store m s') = Ok (b, rows m * j + i - z).
Proof.
  intros G B. destruct (in_block_position s' b _ G B) as (z & E1 & L & E2).
  exists z. split; [exact E1|]. split; [now apply Nat.leb_le|]. exact E2.
Qed.

Theorem C54_set_at : forall m h i j v, mreach m -> i < rows m -> j < cols m ->
  exists p m' p', mposition h i j m = Ok p /\ mset_at cat p v m = Ok (m', p') /\ mreach m' /\
    mposition None i j m' = Ok p' /\
    cells m' (rows m) (cols m) (fun a b => if (a =? i) && (b =? j) then Ok (Some v) else mget a b m).
Proof.
  intros m h i j v H Hi Hj. good_of H. pose proof (mgood_good cat kind m G) as Gs.
  assert (rows m * j + i < cs (store m)) as L by (rewrite (proj2 G); now apply (pos_lt cat kind)).
  destruct (mpos_spot cat kind m h i j G Hi Hj) as (b & k & z & d & E & Sp).
  exists (b, k).
  destruct (C37_set cat nm (fun v => v) (fun _ => true) (fun v => eq_refl) (store m) (flat (store m)) (Some (Some b)) (rows m * j + i) v)
    as (s' & b' & E' & R' & _ & _ & _ & _ & B').
  { apply G. } { apply rch_shows, G. } { right. eapply (flat_ne cat kind m); eauto. } { exact L. }
  destruct (set_cells cat kind m (Some (Some b)) (rows m * j + i) v G L) as (s2 & b2 & E2 & CS).
  rewrite E' in E2. injection E2 as <- <-.
  destruct (at_result m i j s' b' (rch_good cat kind s' R') B') as (z' & Z1 & Z2 & Z3).
  assert (mset_at cat (b, k) v m = Ok (with_store m s', (b', rows m * j + i - z'))) as EM.
  { unfold mset_at, get_pos_at. cbn [fst snd]. pose proof (spot_logical cat kind _ _ _ _ _ _ Gs Sp) as EL.
    unfold logical_position in EL. cbn [fst snd] in EL. rewrite EL. cbn [bind]. rewrite E'. cbn [bind].
    rewrite Z1. cbn [bind]. now rewrite Z2. }
  eexists. eexists. split; [exact E|]. split; [exact EM|]. split.
  { eapply (m_step _ _ m (MSetAt i j v)); [exact H|exact I|]. cbn [mexec].
    assert (mposition None i j m = Ok (b, k)) as ->.
    { unfold mposition, get_pos. eapply (spot_position cat kind); eauto. }
    cbn [bind]. unfold drop_it. rewrite EM. reflexivity. }
  split; [exact Z3|].
  apply (set_upd cat kind) in CS; auto; [|lia].
  eapply cells_ext; [apply upd_cells; exact CS|]. intros a b'' Ha Hb. cbn beta.
  destruct (Nat.eqb_spec b'' j), (Nat.eqb_spec a i), (Nat.leb_spec i a), (Nat.ltb_spec a (i + 1)); cbn [andb]; try lia; try reflexivity.
  subst a. now rewrite Nat.sub_diag.
Qed.

Theorem C54_set_empty : forall m i j, mreach m -> i < rows m -> j < cols m ->
  exists m', mset_empty i j m = Ok m' /\ mreach m' /\
    cells m' (rows m) (cols m) (fun a b => if (a =? i) && (b =? j) then Ok None else mget a b m).
Proof.
  intros m i j H Hi Hj. good_of H.
  destruct (set_empty_cells cat kind m None (rows m * j + i) 1 G ltac:(lia)) as (s' & b & E & CS).
  { rewrite (proj2 G). pose proof (pos_lt cat kind m i j Hi Hj). lia. }
  exists (with_store m s').
  assert (mset_empty i j m = Ok (with_store m s')) as EM.
  { unfold mset_empty, on_store, get_pos. replace (rows m * j + i + 1 - 1) with (rows m * j + i) in E by lia.
    rewrite E. reflexivity. }
  split; [exact EM|]. split; [eapply (m_step _ _ m (MSetEmpty i j)); eauto; exact I|].
  apply (set_upd cat kind) in CS; auto; [|lia].
  eapply cells_ext; [apply upd_cells; exact CS|]. intros a b'' Ha Hb. cbn beta.
  destruct (Nat.eqb_spec b'' j), (Nat.eqb_spec a i), (Nat.leb_spec i a), (Nat.ltb_spec a (i + 1)); cbn [andb]; try lia; try reflexivity.
  subst a. now rewrite Nat.sub_diag.
Qed.

Lemma run_none (m m' : mtx) i j n : cells_set cat m m' (rows m * j + i) n (repeat None n) ->
  cells m' (rows m) (cols m) (fun a b => if in_run (rows m) i j n a b then Ok None else mget a b m).
Proof.
  intros CS. apply run_cells in CS; [|apply repeat_length]. eapply cells_ext; [exact CS|].
  intros a b _ _. cbn beta. destruct (in_run (rows m) i j n a b) eqn:E; [|reflexivity].
  unfold in_run in E. apply andb_true_iff in E as [E1 E2]. apply Nat.leb_le in E1. apply Nat.ltb_lt in E2.
  rewrite nth_error_repeat by lia. reflexivity.
Qed.

Theorem C54_set_empty_len : forall m i j n, mreach m -> 0 < n -> rows m * j + i + n <= rows m * cols m ->
  exists m', mset_empty_len i j n m = Ok m' /\ mreach m' /\
    cells m' (rows m) (cols m) (fun a b => if in_run (rows m) i j n a b then Ok None else mget a b m).
Proof.
  intros m i j n H Hn Hl. good_of H.
  destruct (set_empty_cells cat kind m None (rows m * j + i) n G Hn) as (s' & b & E & CS).
  { rewrite (proj2 G). exact Hl. }
  exists (with_store m s').
  assert (mset_empty_len i j n m = Ok (with_store m s')) as EM.
  { unfold mset_empty_len, on_store, get_pos. destruct (Nat.eqb_spec n 0); [lia|]. rewrite E. reflexivity. }
  split; [exact EM|]. split; [eapply (m_step _ _ m (MSetEmptyLen i j n)); eauto; exact I|].
  now apply run_none.
Qed.

Theorem C54_set_empty_len_zero : forall m i j, mset_empty_len i j 0 m = @Throw mtx E_general.
Proof. reflexivity. Qed.

Theorem C54_set_empty_at : forall m h i j, mreach m -> i < rows m -> j < cols m ->
  exists p m' p', mposition h i j m = Ok p /\ mset_empty_at p m = Ok (m', p') /\ mreach m' /\
    mposition None i j m' = Ok p' /\
    cells m' (rows m) (cols m) (fun a b => if (a =? i) && (b =? j) then Ok None else mget a b m).
Proof.
  intros m h i j H Hi Hj. good_of H. pose proof (mgood_good cat kind m G) as Gs.
  assert (rows m * j + i < cs (store m)) as L by (rewrite (proj2 G); now apply (pos_lt cat kind)).
  destruct (mpos_spot cat kind m h i j G Hi Hj) as (b & k & z & d & E & Sp).
  exists (b, k).
  destruct (C41_set_empty cat nm (fun v => v) (fun _ => true) (fun v => eq_refl) (store m) (flat (store m)) (Some (Some b)) (rows m * j + i) (rows m * j + i))
    as (s' & b' & E' & R' & _ & _ & _ & B').
  { apply G. } { apply rch_shows, G. } { right. eapply (flat_ne cat kind m); eauto. } { lia. } { exact L. }
  destruct (set_empty_cells cat kind m (Some (Some b)) (rows m * j + i) 1 G ltac:(lia) ltac:(lia)) as (s2 & b2 & E2 & CS).
  replace (rows m * j + i + 1 - 1) with (rows m * j + i) in E2 by lia.
  rewrite E' in E2. injection E2 as <- <-.
  destruct (at_result m i j s' b' (rch_good cat kind s' R') B') as (z' & Z1 & Z2 & Z3).
  assert (mset_empty_at (b, k) m = Ok (with_store m s', (b', rows m * j + i - z'))) as EM.
  { unfold mset_empty_at, get_pos_at. cbn [fst snd]. pose proof (spot_logical cat kind _ _ _ _ _ _ Gs Sp) as EL.
    unfold logical_position in EL. cbn [fst snd] in EL. rewrite EL. cbn [bind]. rewrite E'. cbn [bind].
    rewrite Z1. cbn [bind]. now rewrite Z2. }
  eexists. eexists. split; [exact E|]. split; [exact EM|]. split.
  { eapply (m_step _ _ m (MSetEmptyAt i j)); [exact H|exact I|]. cbn [mexec].
    assert (mposition None i j m = Ok (b, k)) as ->.
    { unfold mposition, get_pos. eapply (spot_position cat kind); eauto. }
    cbn [bind]. unfold drop_it. rewrite EM. reflexivity. }
  split; [exact Z3|].
  apply (set_upd cat kind) in CS; auto; [|lia].
  eapply cells_ext; [apply upd_cells; exact CS|]. intros a b'' Ha Hb. cbn beta.
  destruct (Nat.eqb_spec b'' j), (Nat.eqb_spec a i), (Nat.leb_spec i a), (Nat.ltb_spec a (i + 1)); cbn [andb]; try lia; try reflexivity.
  subst a. now rewrite Nat.sub_diag.
Qed.

Theorem C54_set_column_empty : forall m j, mreach m -> 0 < rows m -> j < cols m ->
  exists m', mset_column_empty j m = Ok m' /\ mreach m' /\
    cells m' (rows m) (cols m) (fun a b => if b =? j then Ok None else mget a b m).
Proof.
  intros m j H Hr Hj. good_of H.
  destruct (set_empty_cells cat kind m None (rows m * j + 0) (rows m) G Hr) as (s' & b & E & CS).
  { rewrite (proj2 G). nia. }
  exists (with_store m s').
  assert (mset_column_empty j m = Ok (with_store m s')) as EM.
  { unfold mset_column_empty, on_store, get_pos. destruct (rows m) as [|r] eqn:Er; [lia|].
    replace (S r * j + 0 + S r - 1) with (S r * j + r) in E by lia. rewrite E. reflexivity. }
  split; [exact EM|]. split; [eapply (m_step _ _ m (MColumnEmpty j)); eauto; exact I|].
  apply (set_upd cat kind) in CS; auto; [|apply repeat_length].
  eapply cells_ext; [apply upd_cells; exact CS|]. intros a b'' Ha Hb. cbn beta. change (0 <=? a) with true.
  destruct (Nat.eqb_spec b'' j), (Nat.ltb_spec a (0 + rows m)); cbn [andb]; try lia; try reflexivity.
  rewrite nth_error_repeat by lia. reflexivity.
Qed.

Lemma row_empty_loop i : forall k j m, mreach m -> i < rows m -> j + k <= cols m ->
  exists m', for_each (fun j m => mset_empty i j m) (seq j k) m = Ok m' /\
    cells m' (rows m) (cols m) (fun a b => if (a =? i) && ((j <=? b) && (b <? j + k)) then Ok None else mget a b m).
Proof.
  induction k as [|k IH]; intros j m H Hi Hj.
  { exists m. split; [reflexivity|]. split; [auto|]. split; [auto|]. intros a b _ _.
    destruct (a =? i), (Nat.leb_spec j b), (Nat.ltb_spec b (j + 0)); cbn [andb]; try reflexivity; lia. }
  cbn [seq for_each]. destruct (C54_set_empty m i j H Hi ltac:(lia)) as (m1 & E1 & H1 & R1 & C1 & D1).
  rewrite E1. cbn [bind]. destruct (IH (S j) m1 H1 ltac:(lia) ltac:(lia)) as (m' & E' & R' & C' & D').
  exists m'. split; [exact E'|]. split; [congruence|]. split; [congruence|].
  intros a b Ha Hb. rewrite D' by lia. rewrite D1 by lia.
  destruct (Nat.eqb_spec a i), (Nat.leb_spec (S j) b), (Nat.leb_spec j b), (Nat.ltb_spec b (S j + k)),
    (Nat.ltb_spec b (j + S k)), (Nat.eqb_spec b j); cbn [andb]; try lia; reflexivity.
Qed.

Theorem C54_set_row_empty : forall m i, mreach m -> i < rows m ->
  exists m', mset_row_empty i m = Ok m' /\ mreach m' /\
    cells m' (rows m) (cols m) (fun a b => if a =? i then Ok None else mget a b m).
Proof.
  intros m i H Hi. destruct (row_empty_loop i (cols m) 0 m H Hi ltac:(lia)) as (m' & E & C).
  exists m'. split; [exact E|]. split; [eapply (m_step _ _ m (MRowEmpty i)); eauto; exact I|].
  eapply cells_ext; [exact C|]. intros a b Ha Hb. cbn beta. change (0 <=? b) with true.
  destruct (Nat.ltb_spec b (0 + cols m)); [|lia]. now destruct (a =? i).
Qed.

(** The values of a range go to consecutive cells in column-major order. *)
Theorem C54_set_range : forall m i j vs, mreach m -> one_type cat vs -> vs <> [] ->
  rows m * j + i + length vs <= rows m * cols m ->
  exists m', mset_range cat i j vs m = Ok m' /\ mreach m' /\
    cells m' (rows m) (cols m) (fun a b =>
      if in_run (rows m) i j (length vs) a b
      then match nth_error vs (rows m * b + a - (rows m * j + i)) with Some v => Ok (Some v) | None => Undef end
      else mget a b m).
Proof.
  intros m i j vs H Ho Hne Hl. good_of H.
  destruct (set_range_cells cat kind m None (rows m * j + i) vs G Ho Hne) as (s' & b & E & CS).
  { rewrite (proj2 G). exact Hl. }
  exists (with_store m s').
  assert (mset_range cat i j vs m = Ok (with_store m s')) as EM.
  { unfold mset_range, on_store, get_pos. rewrite E. reflexivity. }
  split; [exact EM|]. split; [eapply (m_step _ _ m (MSetRange i j vs)); eauto|].
  apply run_cells in CS; [|apply map_length]. eapply cells_ext; [exact CS|].
  intros a b' _ _. cbn beta. rewrite nth_error_map. destruct (in_run _ _ _ _ _ _); [|reflexivity].
  now destruct (nth_error vs _).
Qed.

Theorem C54_set_range_at : forall m h i j vs, mreach m -> one_type cat vs -> vs <> [] ->
  i < rows m -> rows m * j + i + length vs <= rows m * cols m ->
  exists p m' p', mposition h i j m = Ok p /\ mset_range_at cat p vs m = Ok (m', p') /\ mreach m' /\
    mposition None i j m' = Ok p' /\
    cells m' (rows m) (cols m) (fun a b =>
      if in_run (rows m) i j (length vs) a b
      then match nth_error vs (rows m * b + a - (rows m * j + i)) with Some v => Ok (Some v) | None => Undef end
      else mget a b m).
Proof.
  intros m h i j vs H Ho Hne Hi Hl. good_of H. pose proof (mgood_good cat kind m G) as Gs.
  assert (0 < length vs) as Lv by (destruct vs; [congruence|cbn; lia]).
  assert (j < cols m) as Hj.
  { assert (~ rows m * j >= rows m * cols m) by lia. apply Nat.nle_gt. intros X. nia. }
  destruct (mpos_spot cat kind m h i j G Hi Hj) as (b & k & z & d & E & Sp).
  exists (b, k).
  destruct (C38_set_range cat nm (fun v => v) (fun _ => true) (fun v => eq_refl) (store m) (flat (store m)) (Some (Some b)) (rows m * j + i) vs)
    as (s' & b' & E' & R' & _ & _ & _ & B').
  { apply G. } { apply rch_shows, G. } { exact Ho. } { exact Hne. } { unfold size. rewrite (proj2 G). exact Hl. }
  destruct (set_range_cells cat kind m (Some (Some b)) (rows m * j + i) vs G Ho Hne) as (s2 & b2 & E2 & CS).
  { rewrite (proj2 G). exact Hl. }
  rewrite E' in E2. injection E2 as <- <-.
  destruct (at_result m i j s' b' (rch_good cat kind s' R') B') as (z' & Z1 & Z2 & Z3).
  assert (mset_range_at cat (b, k) vs m = Ok (with_store m s', (b', rows m * j + i - z'))) as EM.
  { unfold mset_range_at, get_pos_at. cbn [fst snd]. pose proof (spot_logical cat kind _ _ _ _ _ _ Gs Sp) as EL.
    unfold logical_position in EL. cbn [fst snd] in EL. rewrite EL. cbn [bind]. rewrite E'. cbn [bind].
    rewrite Z1. cbn [bind]. now rewrite Z2. }
  eexists. eexists. split; [exact E|]. split; [exact EM|]. split.
  { eapply (m_step _ _ m (MSetRangeAt i j vs)); [exact H|exact Ho|]. cbn [mexec].
    assert (mposition None i j m = Ok (b, k)) as ->.
    { unfold mposition, get_pos. eapply (spot_position cat kind); eauto. }
    cbn [bind]. unfold drop_it. rewrite EM. reflexivity. }
  split; [exact Z3|].
  apply run_cells in CS; [|apply map_length]. eapply cells_ext; [exact CS|].
  intros a b'' _ _. cbn beta. rewrite nth_error_map. destruct (in_run _ _ _ _ _ _); [|reflexivity].
  now destruct (nth_error vs _).
Qed.

(** set_column writes the given values from the top of the column; what does not fit
    is ignored, and cells below keep their content. *)
Theorem C54_set_column : forall m j vs, mreach m -> one_type cat vs -> j < cols m ->
  exists m', mset_column cat j vs m = Ok m' /\ mreach m' /\
    cells m' (rows m) (cols m) (fun a b =>
      if b =? j then match nth_error vs a with Some v => Ok (Some v) | None => mget a b m end else mget a b m).
Proof.
  intros m j vs H Ho Hj. good_of H.
  set (ws := if length vs <=? rows m then vs else firstn (rows m) vs).
  assert (mset_column cat j vs m = on_store m (set_range cat nm None (rows m * j + 0) ws (store m))) as EW.
  { unfold mset_column, get_pos, ws. now destruct (length vs <=? rows m). }
  assert (length ws <= rows m) as Lw.
  { unfold ws. destruct (Nat.leb_spec (length vs) (rows m)); [auto|]. rewrite firstn_length. lia. }
  assert (forall a, a < rows m -> nth_error ws a = nth_error vs a) as Nw.
  { intros a Ha. unfold ws. destruct (Nat.leb_spec (length vs) (rows m)); [auto|].
    rewrite <- (firstn_skipn (rows m) vs) at 2. rewrite nth_error_app1; [reflexivity|]. rewrite firstn_length. lia. }
  assert (one_type cat ws) as Hw.
  { unfold ws. destruct (length vs <=? rows m); [auto|]. intros x y Hx Hy. apply Ho; eapply first_in; eauto. }
  destruct ws as [|w0 wt] eqn:Ew.
  - exists m. assert (mset_column cat j vs m = Ok m) as EM.
    { rewrite EW. unfold on_store, set_range. cbn [length bind]. destruct m. reflexivity. }
    split; [exact EM|]. split; [exact H|]. split; [auto|]. split; [auto|]. intros a b Ha Hb.
    rewrite <- Nw by auto. destruct (b =? j); destruct a; reflexivity.
  - rewrite <- Ew in *. clearbody ws.
    destruct (set_range_cells cat kind m None (rows m * j + 0) ws G Hw ltac:(congruence)) as (s' & b & E & CS).
    { rewrite (proj2 G). nia. }
    exists (with_store m s').
    assert (mset_column cat j vs m = Ok (with_store m s')) as EM by (rewrite EW, E; reflexivity).
    split; [exact EM|]. split; [eapply (m_step _ _ m (MSetColumn j vs)); eauto|].
    apply (set_upd cat kind) in CS; auto; [|apply map_length].
    eapply cells_ext; [apply upd_cells; exact CS|]. intros a b' Ha Hb. cbn beta. change (0 <=? a) with true.
    destruct (Nat.eqb_spec b' j) as [->|]; cbn [andb]; [|reflexivity].
    rewrite <- Nw, Nat.sub_0_r, nth_error_map by auto.
    destruct (Nat.ltb_spec a (0 + length ws)) as [L|L].
    + destruct (nth_error ws a); reflexivity.
    + assert (nth_error ws a = None) as -> by (apply nth_error_None; lia). reflexivity.
Qed.

(** A column number beyond the matrix is rejected. *)
Theorem C54_column_out_of_range : forall m i j v, mreach m -> cols m <= j ->
  mset cat i j v m = Throw E_out_of_range /\ mset_empty i j m = Throw E_out_of_range /\
  mget i j m = Throw E_out_of_range.
Proof.
  intros m i j v H Hj. good_of H. pose proof (mgood_good cat kind m G) as Gs.
  assert (length (flat (store m)) <= rows m * j + i) as L by (rewrite (len_store cat kind m G); nia).
  split; [|split].
  - pose proof (exec_spec cat nm (OSet None (rows m * j + i) v) (store m) Gs (or_introl eq_refl)) as X.
    cbn [spec] in X. destruct (Nat.ltb_spec (rows m * j + i) (length (flat (store m)))); [lia|].
    unfold mset, on_store, get_pos. cbn [exec] in X. destruct (set _ _ _ _ _ _); cbn in X |- *; congruence.
  - pose proof (exec_spec cat nm (OSetEmpty None (rows m * j + i) (rows m * j + i)) (store m) Gs (or_introl eq_refl)) as X.
    cbn [spec] in X. destruct (Nat.ltb_spec (rows m * j + i) (length (flat (store m)))); [lia|].
    rewrite andb_false_r in X.
    unfold mset_empty, on_store, get_pos. cbn [exec] in X. destruct (set_empty _ _ _ _ _); cbn in X |- *; congruence.
  - rewrite (mget_eq cat kind m i j G). assert (nth_error (flat (store m)) (rows m * j + i) = None) as -> by now apply nth_error_None.
    reflexivity.
Qed.

(** A row number beyond the matrix is not rejected: it counts on in the following
    columns. *)
Theorem C54_row_wraps : forall m i j v, 0 < rows m ->
  mset cat i j v m = mset cat (i mod rows m) (j + i / rows m) v m /\
  mget i j m = mget (i mod rows m) (j + i / rows m) m.
Proof.
  intros m i j v H. unfold mset, mget, get_pos.
  assert (rows m * (j + i / rows m) + i mod rows m = rows m * j + i) as ->.
  { pose proof (Nat.div_mod i (rows m) ltac:(lia)). lia. }
  auto.
Qed.

(** ** C55: transpose *)

Theorem C55_transpose_partial : forall g m, mreach m -> plain (rows m) (cols m) m ->
  exists m', transpose cat kind g m = Ok m' /\ mreach m' /\
    cells m' (cols m) (rows m) (fun i j => mget j i m).
Proof.
  intros g m H P. good_of H. destruct (transpose_spec cat kind g m G P) as (m' & E & _ & R & C & D).
  exists m'. split; [exact E|]. split; [eapply (m_step _ _ m (MTranspose g)); eauto; exact I|].
  split; [auto|]. split; [auto|]. intros i j Hi Hj. now apply D.
Qed.

Theorem C55_twice_partial : forall g g' m, mreach m -> plain (rows m) (cols m) m ->
  exists m' m'', transpose cat kind g m = Ok m' /\ transpose cat kind g' m' = Ok m'' /\
    cells m'' (rows m) (cols m) (fun i j => mget i j m).
Proof.
  intros g g' m H P. destruct (C55_transpose_partial g m H P) as (m' & E & H' & R & C & D).
  destruct (C55_transpose_partial g' m' H') as (m'' & E' & H'' & R' & C' & D').
  { intros i j v Hi Hj. rewrite D by lia. apply P; lia. }
  exists m', m''. split; [exact E|]. split; [exact E'|]. split; [congruence|]. split; [congruence|].
  intros i j Hi Hj. rewrite D' by lia. apply D; lia.
Qed.

(** Missing from C55: a matrix with an integer cell.  Then transpose throws. *)
Lemma for_each_throw {A B} (P : B -> Prop) (f : A -> B -> res B) e l : forall b, P b ->
  (forall a b, In a l -> P b -> f a b = Throw e \/ exists b', f a b = Ok b' /\ P b') ->
  (exists a, In a l /\ forall b, P b -> f a b = Throw e) -> for_each f l b = Throw e.
Proof using.
  induction l as [|x l IH]; intros b Hb H (a & Ha & Ht); [contradiction|]. cbn [for_each].
  destruct (H x b (or_introl eq_refl) Hb) as [E|(b' & E & Hb')]; rewrite E; [reflexivity|]. cbn [bind].
  apply IH; auto.
  - intros a' b'' Ha' Hb''. apply H; auto. now right.
  - destruct Ha as [->|Ha]; [rewrite (Ht b Hb) in E; discriminate|]. exists a. auto.
Qed.

Lemma for_each_either {A B} (P : B -> Prop) (f : A -> B -> res B) e l : forall b, P b ->
  (forall a b, In a l -> P b -> f a b = Throw e \/ exists b', f a b = Ok b' /\ P b') ->
  for_each f l b = Throw e \/ exists b', for_each f l b = Ok b' /\ P b'.
Proof using.
  induction l as [|x l IH]; intros b Hb H; cbn [for_each]; [eauto|].
  destruct (H x b (or_introl eq_refl) Hb) as [E|(b' & E & Hb')]; rewrite E; [auto|]. cbn [bind].
  apply IH; auto. intros a b'' Ha. apply H. now right.
Qed.

Theorem C55_integer_throws : forall g m i j v, mreach m -> supported cat kind m ->
  i < rows m -> j < cols m -> mget i j m = Ok (Some v) -> kind (cat v) = Some KInt ->
  transpose cat kind g m = Throw E_general.
Proof.
  intros g m i j v H S Hi Hj Ev Kv. good_of H.
  set (Q := fun t : mtx => mgood t /\ rows t = cols m /\ cols t = rows m).
  assert (forall a b t, a < rows m -> b < cols m -> Q t ->
    transpose_cell cat kind m a b t = Throw E_general \/ exists t', transpose_cell cat kind m a b t = Ok t' /\ Q t') as Hc.
  { intros a b t Ha Hb (Gt & Rt & Ct). unfold transpose_cell.
    destruct (mget_some cat kind m a b G Ha Hb) as (x & Ex & _). rewrite (mtype_eq cat kind m a b x G Ex).
    destruct x as [w|]; cbn [option_map]; unfold to_mtm.
    2:{ right. exists t. split; [reflexivity|]. unfold Q. auto. }
    pose proof (S a b w Ha Hb Ex) as Kw. unfold mget in Ex.
    destruct (mset_upd cat kind t b a w Gt ltac:(lia) ltac:(lia)) as (t1 & E1 & G1 & R1 & C1 & _).
    destruct (kind (cat w)) as [[]|]; cbn [bind]; [| | |left; reflexivity|congruence];
      rewrite Ex; cbn [bind deref]; right; exists t1; (split; [exact E1|]); unfold Q; (split; [auto|]); split; congruence. }
  unfold transpose.
  rewrite (for_each_throw Q _ E_general); [reflexivity| | |].
  - split; [apply (mgood_mk cat kind)|auto].
  - intros a t Ha Qt. apply in_seq in Ha. apply for_each_either; auto.
    intros b t' Hb Qt'. apply in_seq in Hb. apply Hc; auto; lia.
  - exists i. split; [apply in_seq; lia|]. intros t Qt. apply (for_each_throw Q); auto.
    + intros b t' Hb Qt'. apply in_seq in Hb. apply Hc; auto; lia.
    + exists j. split; [apply in_seq; lia|]. intros t' _. unfold transpose_cell.
      rewrite (mtype_eq cat kind m i j _ G Ev). cbn [option_map]. unfold to_mtm. rewrite Kv. reflexivity.
Qed.

(** ** C56: copy, resize, clear, swap *)

Theorem C56_copy_partial : forall src m, mreach src -> mreach m ->
  plain (Nat.min (rows m) (rows src)) (Nat.min (cols m) (cols src)) src ->
  exists m', mcopy cat kind src m = Ok m' /\ mreach m' /\
    cells m' (rows m) (cols m) (fun i j => if (i <? rows src) && (j <? cols src) then mget i j src else mget i j m).
Proof.
  intros src m Hs Hm P. good_of Hs. good_of Hm. destruct (mcopy_spec cat kind src m G G0 P) as (m' & E & U).
  exists m'. split; [exact E|]. split; [eapply m_copy_from with (src := src); eauto|].
  eapply cells_ext; [apply upd_cells; exact U|]. intros a b Ha Hb. cbn beta. now destruct (_ && _).
Qed.

Lemma mclear_ok (m : mtx) : mgood m -> exists m', mclear m = Ok m' /\ rows m' = 0 /\ cols m' = 0.
Proof.
  intros G. pose proof (mgood_good cat kind m G) as Gs.
  destruct (store_step cat kind OClear (store m) [] Gs I eq_refl) as (s' & E & _).
  unfold mclear. cbn [exec] in E. rewrite E. cbn [bind]. eauto.
Qed.

Theorem C56_clear : forall m, mreach m -> exists m', mclear m = Ok m' /\ mreach m' /\ cells m' 0 0 (fun _ _ => Undef).
Proof.
  intros m H. good_of H. destruct (mclear_ok m G) as (m' & E & R & C). exists m'. split; [exact E|].
  split; [eapply (m_step _ _ m MClear); eauto; exact I|]. split; [auto|]. split; [auto|]. intros i j Hi. lia.
Qed.

Lemma zero_dim (r c : nat) : (r =? 0) || (c =? 0) = true -> r = 0 \/ c = 0.
Proof. intros E. apply orb_true_iff in E as [E|E]; apply Nat.eqb_eq in E; auto. Qed.

Lemma nonzero_dim (r c : nat) : 0 < r -> 0 < c -> (r =? 0) || (c =? 0) = false.
Proof. intros H1 H2. destruct (Nat.eqb_spec r 0), (Nat.eqb_spec c 0); auto; lia. Qed.

Lemma swap_second (t m : mtx) : snd (mswap t m) = t.
Proof. destruct t, m. reflexivity. Qed.

Theorem C56_resize_partial : forall g r c m, mreach m -> 0 < r -> 0 < c ->
  plain (Nat.min r (rows m)) (Nat.min c (cols m)) m ->
  exists m', mresize cat kind g r c m = Ok m' /\ mreach m' /\
    cells m' r c (fun i j => if (i <? rows m) && (j <? cols m) then mget i j m else Ok None).
Proof.
  intros g r c m H Hr Hc P.
  destruct (C56_copy_partial m (mk g r c) H (m_dims _ _ g r c) P) as (t & E & Ht & C).
  exists t. assert (mresize cat kind g r c m = Ok t) as EM.
  { unfold mresize. rewrite (nonzero_dim r c Hr Hc), E. cbn [bind]. now rewrite swap_second. }
  split; [exact EM|]. split; [exact Ht|]. eapply cells_ext; [exact C|]. intros i j Hi Hj. cbn beta.
  destruct (_ && _); [reflexivity|]. apply (mk_none cat kind); auto.
Qed.

Theorem C56_resize_value_partial : forall g r c v m, mreach m -> 0 < r -> 0 < c ->
  plain (Nat.min r (rows m)) (Nat.min c (cols m)) m ->
  exists m', mresize_val cat kind g r c v m = Ok m' /\ mreach m' /\
    cells m' r c (fun i j => if (i <? rows m) && (j <? cols m) then mget i j m else Ok (Some v)).
Proof.
  intros g r c v m H Hr Hc P.
  destruct (C56_copy_partial m (mk_val cat g r c v) H (m_val _ _ g r c v) P) as (t & E & Ht & C).
  exists t. assert (mresize_val cat kind g r c v m = Ok t) as EM.
  { unfold mresize_val. rewrite (nonzero_dim r c Hr Hc), E. cbn [bind]. now rewrite swap_second. }
  split; [exact EM|]. split; [exact Ht|]. eapply cells_ext; [exact C|]. intros i j Hi Hj. cbn beta.
  destruct (_ && _); [reflexivity|]. apply (fill_val cat kind); auto.
Qed.

(** With a zero dimension the matrix gets dimensions 0 x 0. *)
Theorem C56_resize_zero : forall g r c m, mreach m -> r = 0 \/ c = 0 ->
  exists m', mresize cat kind g r c m = Ok m' /\ mreach m' /\ rows m' = 0 /\ cols m' = 0.
Proof.
  intros g r c m H Z. destruct (C56_clear m H) as (m' & E & H' & R & C & _). exists m'.
  split; [|auto]. unfold mresize. replace ((r =? 0) || (c =? 0)) with true; [exact E|].
  destruct Z; subst; [reflexivity|]. now rewrite orb_true_r.
Qed.

(** copy(rows, cols, begin, end): the values fill the upper-left area, column by
    column. *)
Theorem C56_copy_values : forall r c vs m, mreach m -> one_type cat vs -> vs <> [] -> length vs = r * c ->
  r <= rows m -> c <= cols m -> (forall v, In v vs -> kind (cat v) <> None) ->
  exists m', mcopy_vals cat kind r c vs m = Ok m' /\ mreach m' /\
    cells m' (rows m) (cols m) (fun i j =>
      if (i <? r) && (j <? c) then match nth_error vs (r * j + i) with Some v => Ok (Some v) | None => Undef end
      else mget i j m).
Proof.
  intros r c vs m H Ho Hne Hl Hr Hc Hk. good_of H.
  assert (0 < length vs) as Lv by (destruct vs; [congruence|cbn; lia]).
  assert (0 < r /\ 0 < c) as [Hr0 Hc0].
  { split; apply Nat.neq_0_lt_0; intros X; subst; lia. }
  destruct (mpos_spot cat kind m None 0 0 G ltac:(lia) ltac:(lia)) as (b & k & z & d & E0 & _).
  destruct (copy_vals_spec cat kind r c Hr0 c 0 vs (b, k) m Ho Hl G Hr ltac:(lia) Hc) as (m' & E & U).
  exists m'. assert (mcopy_vals cat kind r c vs m = Ok m') as EM.
  { unfold mcopy_vals. rewrite (mempty_eq cat kind m G).
    destruct (Nat.eqb_spec (length vs) 0); [lia|]. cbn [orb].
    destruct (Nat.eqb_spec (rows m * cols m) 0) as [Z|_]; [apply Nat.eq_mul_0 in Z; lia|].
    rewrite Hl, Nat.eqb_refl. cbn [negb].
    destruct (Nat.ltb_spec (rows m) r); [lia|]. destruct (Nat.ltb_spec (cols m) c); [lia|]. cbn [orb].
    destruct vs as [|v0 vt] eqn:Evs; [congruence|]. cbn [nth_error deref bind]. rewrite <- Evs in *.
    unfold to_mtm. specialize (Hk v0 ltac:(rewrite Evs; now left)).
    destruct (kind (cat v0)); [|congruence]. cbn [bind]. rewrite E0. cbn [bind]. exact E. }
  split; [exact EM|]. split; [eapply (m_step _ _ m (MCopyVals r c vs)); eauto|].
  eapply cells_ext; [apply upd_cells; exact U|]. intros i j Hi Hj. cbn beta. change (0 <=? j) with true. rewrite Nat.sub_0_r.
  cbn [andb]. change (0 + c) with c. rewrite (andb_comm (j <? c)).
  destruct (Nat.ltb_spec i r), (Nat.ltb_spec j c); cbn [andb]; try reflexivity.
  destruct (nth_error vs (r * j + i)) eqn:X; [reflexivity|]. apply nth_error_None in X. nia.
Qed.

(** What does not fit is rejected before anything is written. *)
Theorem C56_copy_values_rejects : forall r c vs m, mreach m -> vs <> [] -> 0 < rows m -> 0 < cols m ->
  length vs <> r * c \/ rows m < r \/ cols m < c ->
  mcopy_vals cat kind r c vs m = Throw E_size.
Proof.
  intros r c vs m H Hne Hr Hc B. good_of H. unfold mcopy_vals. rewrite (mempty_eq cat kind m G).
  destruct (Nat.eqb_spec (length vs) 0) as [L|L]; [destruct vs; [congruence|discriminate]|]. cbn [orb].
  destruct (Nat.eqb_spec (rows m * cols m) 0) as [Z|_]; [apply Nat.eq_mul_0 in Z; lia|].
  destruct (Nat.eqb_spec (length vs) (r * c)); cbn [negb]; [|reflexivity].
  destruct (Nat.ltb_spec (rows m) r); [reflexivity|]. destruct (Nat.ltb_spec (cols m) c); [reflexivity|]. lia.
Qed.

Theorem C56_swap : forall a b : mtx, mswap a b = (b, a).
Proof. intros [sa ra ca] [sb rb cb]. reflexivity. Qed.

(** Copies show the same cells and compare equal. *)
Theorem C56_copy_constructor : forall g m (veq : V -> V -> bool), mreach m -> (forall x, veq x x = true) ->
  exists m', mk_copy g m = Ok m' /\ mreach m' /\ cells m' (rows m) (cols m) (fun i j => mget i j m) /\
    meq veq m m' = true.
Proof.
  intros g m veq H Hv. good_of H.
  destruct (C46_copy cat nm (fun v => v) (fun _ => true) (fun v => eq_refl) anyop g (store m) (flat (store m)))
    as (s' & E & R & Sh & Q).
  { apply G. } { apply rch_shows, G. } { auto. }
  exists (MX s' (rows m) (cols m)). assert (mk_copy g m = Ok (MX s' (rows m) (cols m))) as EM.
  { unfold mk_copy. rewrite E. reflexivity. }
  split; [exact EM|]. assert (mreach (MX s' (rows m) (cols m))) as HM by (eapply m_copy; eauto).
  split; [exact HM|]. good_of HM. split.
  - split; [auto|]. split; [auto|]. intros i j Hi Hj.
    rewrite (mget_eq cat kind _ i j G0), (mget_eq cat kind m i j G). cbn [store rows].
    rewrite <- (shows_eq cat s' _ (rch_good cat kind s' R) Sh).
    rewrite nth_error_map. destruct (nth_error (flat (store m)) (rows m * j + i)) as [[w|]|]; reflexivity.
  - unfold meq. cbn [rows cols store]. rewrite !Nat.eqb_refl. cbn [andb]. now apply Q.
Qed.

Theorem C56_assignment : forall g m other, mreach m -> mreach other ->
  exists m', massign g m other = Ok m' /\ mreach m' /\
    cells m' (rows other) (cols other) (fun i j => mget i j other).
Proof.
  intros g m other H Ho. destruct (C56_copy_constructor g other (fun _ _ => true) Ho (fun _ => eq_refl)) as (m' & E & H' & C & _).
  unfold mk_copy in E. destruct (copy_of _ _ g (store other)) as [s| |] eqn:Es; cbn [bind] in E; try discriminate.
  injection E as <-. exists (MX s (rows other) (cols other)). split; [|auto].
  unfold massign, assign. rewrite Es. reflexivity.
Qed.

Theorem C56_equal_sound : forall (veq : V -> V -> bool) a b, (forall x y, veq x y = true <-> x = y) ->
  mreach a -> mreach b -> meq veq a b = true ->
  cells b (rows a) (cols a) (fun i j => mget i j a).
Proof.
  intros veq a b Hv Ha Hb E. good_of Ha. good_of Hb. unfold meq in E.
  apply andb_true_iff in E as [E1 E2]. apply andb_true_iff in E1 as [Er Ec].
  apply Nat.eqb_eq in Er. apply Nat.eqb_eq in Ec.
  apply (eq_mtv_sound veq Hv) in E2.
  split; [auto|]. split; [auto|]. intros i j Hi Hj. rewrite (mget_eq cat kind b i j G0), (mget_eq cat kind a i j G).
  rewrite <- Er, E2. reflexivity.
Qed.

(** ** C57: walk *)

Theorem C57_walk_partial : forall m i1 j1 i2 j2, mreach m -> supported cat kind m ->
  i1 <= i2 -> j1 <= j2 -> i2 < rows m -> j2 < cols m ->
  exists nds, walk_sub kind i1 j1 i2 j2 m = Ok nds /\ Forall (node_ok cat kind) nds /\
    map Ok (flat_map node_cells nds) = area m i1 (i2 - i1 + 1) j1 (j2 - j1 + 1).
Proof.
  intros m i1 j1 i2 j2 H S Hi Hj Hi2 Hj2. good_of H. unfold walk_sub.
  destruct (Nat.ltb_spec i2 i1); [lia|]. destruct (Nat.ltb_spec j2 j1); [lia|]. cbn [orb].
  destruct (Nat.ltb_spec (rows m) i2); [lia|]. destruct (Nat.ltb_spec (cols m) j2); [lia|]. cbn [orb].
  destruct (mpos_spot cat kind m None 0 0 G ltac:(lia) ltac:(lia)) as (b & k & z & d & E & _).
  rewrite E. cbn [bind]. apply (walk_cols_spec cat kind); auto; lia.
Qed.

(** Every cell of the sub-matrix is shown exactly once, none twice: the list of the
    theorem above has one entry for each pair of row and column, in that order. *)
Theorem C57_area_each_once : forall (m : mtx) i n j k, 
  area m i n j k = map (fun p => mget (fst p) (snd p) m) (flat_map (fun b => map (fun a => (a, b)) (seq i n)) (seq j k)) /\
  NoDup (flat_map (fun b => map (fun a => (a, b)) (seq i n)) (seq j k)) /\
  forall a b, In (a, b) (flat_map (fun b => map (fun a => (a, b)) (seq i n)) (seq j k)) <-> i <= a < i + n /\ j <= b < j + k.
Proof.
  intros m i n j k. unfold area. split; [|split].
  - induction (seq j k) as [|b l IH]; [reflexivity|]. cbn [flat_map]. rewrite map_app, IH. f_equal.
    rewrite map_map. reflexivity.
  - assert (NoDup (seq j k)) as N by apply seq_NoDup. induction N as [|b l Hb N IH]; [constructor|]. cbn [flat_map].
    assert (NoDup (map (fun a => (a, b)) (seq i n))) as N2.
    { apply FinFun.Injective_map_NoDup; [|apply seq_NoDup]. intros x y E. congruence. }
    revert N2. generalize (seq i n) at 1 2 as l0. intros l0.
    induction l0 as [|a l0 IH0]; intros N2; cbn [map app]; [exact IH|]. inversion N2 as [|? ? X Y]; subst.
    constructor; [|auto]. intros C. apply in_app_or in C as [C|C]; [auto|].
    apply in_flat_map in C as (b' & Hb' & C). apply in_map_iff in C as (a' & C & _). congruence.
  - intros a b. rewrite in_flat_map. split.
    + intros (b' & Hb & C). apply in_map_iff in C as (a' & C & Ha). injection C as -> ->.
      apply in_seq in Hb. apply in_seq in Ha. auto.
    + intros [Ha Hb]. exists b. split; [apply in_seq; auto|]. apply in_map_iff. exists a. split; [auto|]. apply in_seq. auto.
Qed.

Theorem C57_walk_rejects_partial : forall m i1 j1 i2 j2,
  i2 < i1 \/ j2 < j1 \/ rows m < i2 \/ cols m < j2 ->
  walk_sub kind i1 j1 i2 j2 m = @Throw (list (@node V)) E_size.
Proof.
  intros m i1 j1 i2 j2 H. unfold walk_sub.
  destruct (Nat.ltb_spec i2 i1); [reflexivity|]. destruct (Nat.ltb_spec j2 j1); [reflexivity|]. cbn [orb].
  destruct (Nat.ltb_spec (rows m) i2); [reflexivity|]. destruct (Nat.ltb_spec (cols m) j2); [reflexivity|]. lia.
Qed.

Lemma supported_flat (m : mtx) v : mgood m -> supported cat kind m -> In (Some v) (flat (store m)) -> kind (cat v) <> None.
Proof.
  intros G S Hv. apply In_nth_error in Hv as (p & Ep).
  assert (p < rows m * cols m) as L.
  { rewrite <- (len_store cat kind m G). apply nth_error_Some. congruence. }
  assert (rows m <> 0) by (intros X; rewrite X in L; cbn in L; lia).
  pose proof (Nat.div_mod p (rows m) ltac:(lia)) as D.
  pose proof (Nat.mod_upper_bound p (rows m) ltac:(lia)) as M.
  assert (p / rows m < cols m) as C by (apply Nat.div_lt_upper_bound; lia).
  apply (S (p mod rows m) (p / rows m) v M C).
  rewrite (mget_eq cat kind m _ _ G), <- D, Ep. reflexivity.
Qed.

Lemma whole_area (m : mtx) : mgood m -> map Ok (flat (store m)) = area m 0 (rows m) 0 (cols m).
Proof.
  intros G. assert (forall k j, j + k = cols m -> map Ok (skipn (rows m * j) (flat (store m))) = area m 0 (rows m) j k) as X.
  { induction k as [|k IH]; intros j Hj.
    - rewrite skipn_all2; [reflexivity|]. rewrite (len_store cat kind m G). nia.
    - unfold area. cbn [seq flat_map]. fold (area m 0 (rows m) (S j) k). rewrite <- (IH (S j)) by lia.
      rewrite <- (column_cells cat kind m 0 (rows m) j G) by lia. rewrite Nat.add_0_r, <- map_app. f_equal.
      rewrite <- (firstn_skipn (rows m) (skipn (rows m * j) (flat (store m)))) at 1. f_equal.
      rewrite (skipn_add cat kind). f_equal. lia. }
  rewrite <- (X (cols m) 0) by lia. now rewrite Nat.mul_0_r.
Qed.

(** walk(func) shows all cells of the matrix, in column-major order. *)
Theorem C57_walk_all : forall m, mreach m -> supported cat kind m ->
  exists nds, walk_all kind m = Ok nds /\ Forall (node_ok cat kind) nds /\
    map Ok (flat_map node_cells nds) = area m 0 (rows m) 0 (cols m).
Proof.
  intros m H S. good_of H. pose proof (mgood_good cat kind m G) as (W & _).
  destruct (walk_blocks_spec cat kind (bl (store m)) 0 W) as (nds & E & O & C).
  { intros v Hv. now apply (supported_flat m v G S). }
  exists nds. split; [exact E|]. split; [exact O|]. rewrite C. now apply whole_area.
Qed.

(** walk(func, right) shows the cells of both matrices in step. *)
Theorem C57_walk_pair : forall m right, mreach m -> mreach right -> supported cat kind m -> supported cat kind right ->
  rows m = rows right -> cols m = cols right ->
  exists l, walk_pair kind right m = Ok l /\
    Forall (fun n => node_ok cat kind (fst n) /\ node_ok cat kind (snd n) /\ nsize (fst n) = nsize (snd n)) l /\
    map Ok (flat_map (fun n => node_cells (fst n)) l) = area m 0 (rows m) 0 (cols m) /\
    map Ok (flat_map (fun n => node_cells (snd n)) l) = area right 0 (rows m) 0 (cols m).
Proof.
  intros m right H1 H2 S1 S2 Er Ec. good_of H1. good_of H2.
  pose proof (mgood_good cat kind m G) as Gm. pose proof (mgood_good cat kind right G0) as Gr.
  assert (area right 0 (rows m) 0 (cols m) = map Ok (flat (store right))) as -> by (rewrite Er, Ec; symmetry; now apply whole_area).
  rewrite <- (whole_area m G).
  unfold walk_pair. rewrite Er, Ec, !Nat.eqb_refl. cbn [andb negb]. rewrite (mempty_eq cat kind m G).
  assert (cs (store m) = cs (store right)) as Ecs by (rewrite (proj2 G), (proj2 G0); congruence).
  destruct (Nat.eqb_spec (rows m * cols m) 0) as [Z|Z].
  { exists []. split; [reflexivity|]. split; [constructor|].
    assert (flat (store m) = []) as ->.
    { apply length_zero_iff_nil. rewrite (len_store cat kind m G). exact Z. }
    assert (flat (store right) = []) as ->.
    { apply length_zero_iff_nil. rewrite (len_store cat kind right G0). congruence. }
    auto. }
  assert (0 < cs (store m)) as Hp by (rewrite (proj2 G); lia).
  assert (forall s : st, good cat s -> 0 < cs s -> exists z d, spot s 0 0 0 z d) as First.
  { intros s (W & C & _) L. destruct (bl s) as [|b t] eqn:Eb; [cbn in C; lia|].
    exists (bs b), (bd b). exists [], b, t. cbn [wfl] in W. destruct W as (_ & [? _] & _). repeat split; auto. }
  destruct (First (store m) Gm Hp) as (z1 & d1 & Sp1). destruct (First (store right) Gr ltac:(lia)) as (z2 & d2 & Sp2).
  destruct (walk_two_spec cat kind (store m) (store right) Gm Gr Ecs
    (fun v => supported_flat m v G S1) (fun v => supported_flat right v G0 S2)
    (size (store m)) 0 _ _ _ _ _ _ _ _ (size (store m)) Sp1 Sp2) as (l & E & O & C1 & C2).
  { exact Hp. } { lia. } { reflexivity. }
  exists l. split; [exact E|]. split; [exact O|]. unfold cells1, cells2 in *. cbn [skipn] in *. rewrite C1, C2. auto.
Qed.

Theorem C57_walk_pair_rejects : forall m right : mtx, rows m <> rows right \/ cols m <> cols right ->
  walk_pair kind right m = Throw E_size.
Proof.
  intros m right H. unfold walk_pair.
  destruct (Nat.eqb_spec (rows m) (rows right)), (Nat.eqb_spec (cols m) (cols right)); cbn [andb negb]; auto. lia.
Qed.

Theorem C57_walk_pair_sub_partial : forall m right i1 j1 i2 j2, mreach m -> mreach right ->
  supported cat kind m -> supported cat kind right ->
  i1 <= i2 -> j1 <= j2 -> i2 < rows m -> j2 < cols m -> i2 < rows right -> j2 < cols right ->
  exists l, walk_pair_sub kind right i1 j1 i2 j2 m = Ok l /\
    Forall (fun n => node_ok cat kind (fst n) /\ node_ok cat kind (snd n) /\ nsize (fst n) = nsize (snd n)) l /\
    map Ok (flat_map (fun n => node_cells (fst n)) l) = area m i1 (i2 - i1 + 1) j1 (j2 - j1 + 1) /\
    map Ok (flat_map (fun n => node_cells (snd n)) l) = area right i1 (i2 - i1 + 1) j1 (j2 - j1 + 1).
Proof.
  intros m right i1 j1 i2 j2 H1 H2 S1 S2 Hi Hj A1 A2 A3 A4. good_of H1. good_of H2. unfold walk_pair_sub.
  destruct (Nat.ltb_spec i2 i1); [lia|]. destruct (Nat.ltb_spec j2 j1); [lia|]. cbn [orb].
  destruct (Nat.ltb_spec (rows m) i2); [lia|]. destruct (Nat.ltb_spec (cols m) j2); [lia|]. cbn [orb].
  destruct (Nat.ltb_spec (rows right) i2); [lia|]. destruct (Nat.ltb_spec (cols right) j2); [lia|]. cbn [orb].
  destruct (mpos_spot cat kind m None 0 0 G ltac:(lia) ltac:(lia)) as (b & k & z & d & E & _).
  destruct (mpos_spot cat kind right None 0 0 G0 ltac:(lia) ltac:(lia)) as (b' & k' & z' & d' & E' & _).
  rewrite E, E'. cbn [bind]. apply (walk_two_cols_spec cat kind); auto; lia.
Qed.

(** ** C72: positions, queries and constructors *)

Theorem C72_position_round_trip : forall m h i j, mreach m -> i < rows m -> j < cols m ->
  exists p, mposition h i j m = Ok p /\ matrix_position p m = Ok (i, j).
Proof.
  intros m h i j H Hi Hj. good_of H. destruct (mpos_spot cat kind m h i j G Hi Hj) as (b & k & z & d & E & Sp).
  exists (b, k). split; [exact E|]. unfold matrix_position.
  rewrite (spot_logical cat kind _ _ _ _ _ _ (mgood_good cat kind m G) Sp). cbn [bind].
  destruct (rows m) as [|r] eqn:Er; [lia|]. rewrite <- Er in *.
  assert ((rows m * j + i) / rows m = j) as ->.
  { rewrite Nat.mul_comm, Nat.div_add_l by lia. rewrite Nat.div_small by lia. lia. }
  f_equal. f_equal. lia.
Qed.

Theorem C72_get_string : forall m i j v, mreach m -> i < rows m -> j < cols m -> mget i j m = Ok (Some v) ->
  mget_string kind i j m = match kind (cat v) with Some KStr => Ok v | _ => Throw E_general end.
Proof.
  intros m i j v H Hi Hj Ev. good_of H. pose proof (mgood_good cat kind m G) as Gs.
  destruct (mpos_spot cat kind m None i j G Hi Hj) as (b & k & z & d & E & Sp).
  unfold mget_string. unfold mposition, get_pos in E. unfold get_pos. rewrite E. cbn [bind fst].
  rewrite (spot_data cat kind _ _ _ _ _ _ Sp). cbn [bind].
  assert (dcat d = Some (cat v) /\ get_at (b, k) (store m) = Ok v) as [-> EA].
  { assert (get_at (b, k) (store m) = Ok v) as EA.
    { eapply (get_at_spec cat); eauto. rewrite (proj2 G). now apply (pos_lt cat kind). }
    split; [|exact EA].
    destruct d as [e|].
    - destruct (spot_cat cat kind _ _ _ _ _ _ Gs Sp) as [_ A]. unfold dcat. cbn [option_map]. f_equal. symmetry. apply A.
      unfold get_at, edata in EA. cbn [fst snd] in EA. rewrite (spot_data cat kind _ _ _ _ _ _ Sp) in EA. cbn [bind deref] in EA.
      destruct (nth_error (ev e) k) eqn:En; [|discriminate]. injection EA as ->. eapply nth_error_In; eauto.
    - unfold get_at, edata in EA. cbn [fst snd] in EA. rewrite (spot_data cat kind _ _ _ _ _ _ Sp) in EA. discriminate. }
  destruct (kind (cat v)) as [[]|]; auto.
Qed.

(** The block behind a position has the type of the cell, and holds its value. *)
Lemma cell_block (m : mtx) h i j x : mgood m -> i < rows m -> j < cols m -> mget i j m = Ok x ->
  exists b k z d, mposition h i j m = Ok (b, k) /\ spot (store m) (rows m * j + i) b k z d /\
    dcat d = option_map cat x /\ match x with Some v => get_at (b, k) (store m) = Ok v | None => d = None end.
Proof.
  intros G Hi Hj Ex. pose proof (mgood_good cat kind m G) as Gs.
  destruct (mpos_spot cat kind m h i j G Hi Hj) as (b & k & z & d & E & Sp).
  exists b, k, z, d. split; [exact E|]. split; [exact Sp|]. destruct x as [v|].
  - assert (get_at (b, k) (store m) = Ok v) as EA.
    { eapply (get_at_spec cat); eauto. rewrite (proj2 G). now apply (pos_lt cat kind). }
    split; [|exact EA]. destruct d as [e|].
    + destruct (spot_cat cat kind _ _ _ _ _ _ Gs Sp) as [_ A]. cbn [option_map]. change (dcat (Some e)) with (Some (ecat e)).
      f_equal. symmetry. apply A.
      unfold get_at, edata in EA. cbn [fst snd] in EA. rewrite (spot_data cat kind _ _ _ _ _ _ Sp) in EA. cbn [bind deref] in EA.
      destruct (nth_error (ev e) k) eqn:En; [|discriminate]. injection EA as ->. eapply nth_error_In; eauto.
    + unfold get_at, edata in EA. cbn [fst snd] in EA. rewrite (spot_data cat kind _ _ _ _ _ _ Sp) in EA. discriminate.
  - enough (d = None) as -> by (split; reflexivity).
    destruct d as [e|]; [exfalso|reflexivity]. rewrite (mget_eq cat kind m i j G) in Ex.
    assert (k < z) as Hk by (now destruct (spot_left cat kind _ _ _ _ _ _ Sp)).
    destruct (spot_chunk cat kind _ _ _ _ _ _ 1 Gs Sp ltac:(lia)) as [C _].
    destruct (nth_error (flat (store m)) (rows m * j + i)) as [y|] eqn:En; [|discriminate]. injection Ex as ->.
    assert (firstn 1 (skipn (rows m * j + i) (flat (store m))) = [None]) as F.
    { clear -En. revert En. generalize (rows m * j + i) (flat (store m)). intros n l. revert l.
      induction n as [|n IH]; intros [|a l] H; cbn in *; try discriminate; [now injection H as ->|now apply IH]. }
    rewrite F in C. unfold chunk in C. destruct (firstn 1 (skipn k (ev e))) as [|a l] eqn:X; cbn in C; try rewrite X in C; discriminate.
Qed.

(** get_numeric gives the number of a cell that holds one, zero for strings and empty
    cells. *)
Theorem C72_get_numeric : forall D (num : V -> D) zero m i j x, mreach m -> i < rows m -> j < cols m ->
  mget i j m = Ok x ->
  mget_numeric kind num zero i j m =
    match x with
    | None => Ok zero
    | Some v => match kind (cat v) with Some KStr => Ok zero | Some _ => Ok (num v) | None => Throw E_general end
    end.
Proof.
  intros D num zero m i j x H Hi Hj Ex. good_of H.
  destruct (cell_block m None i j x G Hi Hj Ex) as (b & k & z & d & E & Sp & Ec & Ev).
  unfold mget_numeric. unfold mposition, get_pos in E. unfold get_pos. rewrite E. cbn [bind fst].
  rewrite (spot_data cat kind _ _ _ _ _ _ Sp). cbn [bind]. rewrite Ec. destruct x as [v|]; cbn [option_map]; [|reflexivity].
  rewrite Ev. destruct (kind (cat v)) as [[]|]; reflexivity.
Qed.

(** get_type of a position is get_type of the cell. *)
Theorem C72_type_at : forall m h i j p, mreach m -> i < rows m -> j < cols m ->
  mposition h i j m = Ok p -> mtype_at kind p m = mtype kind i j m.
Proof.
  intros m h i j p H Hi Hj Ep. good_of H. destruct (mget_some cat kind m i j G Hi Hj) as (x & Ex & _).
  destruct (cell_block m h i j x G Hi Hj Ex) as (b & k & z & d & E & Sp & Ec & _).
  rewrite E in Ep. injection Ep as <-. rewrite (mtype_eq cat kind m i j x G Ex).
  unfold mtype_at. cbn [fst]. rewrite (spot_data cat kind _ _ _ _ _ _ Sp). cbn [bind]. now rewrite Ec.
Qed.

(** next_position goes through the cells column by column, and from the last one to
    end_position, which is the position of no cell. *)
Theorem C72_next_position : forall m h i j p, mreach m -> i < rows m -> j < cols m ->
  mposition h i j m = Ok p ->
  mnext_position p m = (if S i <? rows m then mposition None (S i) j m
                        else if S j <? cols m then mposition None 0 (S j) m
                        else Ok (end_position m)) /\
  p <> end_position m.
Proof.
  intros m h i j p H Hi Hj Ep. good_of H. pose proof (mgood_good cat kind m G) as Gs.
  destruct (mpos_spot cat kind m h i j G Hi Hj) as (b & k & z & d & E & Sp).
  rewrite E in Ep. injection Ep as <-. split.
  - unfold mnext_position. unfold mposition, get_pos in *.
    rewrite (next_position_spec cat _ _ b k (rows m * j + i) Gs ltac:(rewrite (proj2 G); now apply (pos_lt cat kind)) E).
    destruct (Nat.ltb_spec (S i) (rows m)); [f_equal; lia|]. destruct (Nat.ltb_spec (S j) (cols m)).
    + f_equal. nia.
    + replace (S (rows m * j + i)) with (cs (store m)); [apply position_end|]. rewrite (proj2 G). nia.
  - destruct Sp as (q & b' & t & Eb & <- & _). unfold end_position. intros X. injection X as X _.
    unfold nblk in X. rewrite Eb, app_length in X. cbn [length] in X. lia.
Qed.

Lemma numeric_blocks_spec l : forall p, wfl cat p l ->
  (forall v, In (Some v) (flatl l) -> kind (cat v) <> None) ->
  numeric_blocks kind l = Ok (forallb (fun x => match x with
     | Some v => match kind (cat v) with Some KNum | Some KBool | Some KInt => true | _ => false end
     | None => false end) (flatl l)).
Proof.
  induction l as [|b t IH]; intros p W K; cbn [numeric_blocks]; [reflexivity|].
  cbn [wfl] in W. destruct W as (_ & O & W). rewrite flatl_cons, forallb_app.
  pose proof (flatb_length cat b O) as Lb. destruct O as [Z O].
  specialize (IH _ W). rewrite flatl_cons in K.
  assert (forall v, In (Some v) (flatl t) -> kind (cat v) <> None) as Kt by (intros v Hv; apply K, in_or_app; auto).
  specialize (IH Kt).
  assert (forall v, In (Some v) (flatb b) -> kind (cat v) <> None) as Kb by (intros v Hv; apply K, in_or_app; auto).
  unfold flatb, okd in *. unfold dcat. destruct (bd b) as [e|]; cbn [option_map].
  - destruct O as [Le Ae]. unfold all_cat in Ae. rewrite forallb_forall in Ae. rewrite map_length in Lb.
    assert (forall v, In v (ev e) -> cat v = ecat e) as A by (intros v Hv; now apply Nat.eqb_eq, Ae).
    destruct (ev e) as [|v0 vs] eqn:Ev; [cbn in Lb; lia|]. rewrite <- Ev in *.
    assert (kind (ecat e) <> None) as K0.
    { rewrite <- (A v0) by (rewrite Ev; now left). apply Kb. rewrite Ev. now left. }
    assert (forall B : bool, (forall v, In v (ev e) -> match kind (cat v) with Some KNum | Some KBool | Some KInt => true | _ => false end = B) ->
      forallb (fun x => match x with Some v => match kind (cat v) with Some KNum | Some KBool | Some KInt => true | _ => false end | None => false end) (map Some (ev e)) = B) as FB.
    { intros B HB. destruct B.
      - apply forallb_forall. intros x Hx. apply in_map_iff in Hx as (v & <- & Hv). now apply HB.
      - rewrite Ev. cbn [map forallb]. rewrite HB by (rewrite Ev; now left). reflexivity. }
    destruct (kind (ecat e)) as [[]|] eqn:Ek; try congruence.
    all: try (rewrite (FB true) by (intros v Hv; rewrite (A v Hv), Ek; reflexivity); cbn [andb]; exact IH).
    rewrite (FB false) by (intros v Hv; rewrite (A v Hv), Ek; reflexivity). reflexivity.
  - destruct (bs b); [lia|]. reflexivity.
Qed.

(** numeric() is true exactly when the matrix has cells and each of them holds a
    number or a boolean. *)
Theorem C72_numeric : forall m, mreach m -> supported cat kind m ->
  exists b, numeric kind m = Ok b /\
    (b = true <-> 0 < rows m /\ 0 < cols m /\ forall i j, i < rows m -> j < cols m ->
       exists v k, mget i j m = Ok (Some v) /\ kind (cat v) = Some k /\ k <> KStr).
Proof.
  intros m H S. good_of H. pose proof (mgood_good cat kind m G) as (W & _). unfold numeric.
  rewrite (mempty_eq cat kind m G).
  destruct (Nat.eqb_spec (rows m * cols m) 0) as [Z|Z].
  { exists false. split; [reflexivity|]. split; [discriminate|]. intros (H1 & H2 & _). apply Nat.eq_mul_0 in Z. lia. }
  assert (0 < rows m /\ 0 < cols m) as [? ?] by (split; apply Nat.neq_0_lt_0; intros X; apply Z; rewrite X; lia).
  eexists. split; [apply (numeric_blocks_spec _ 0 W); intros v Hv; now apply (supported_flat m v G S)|].
  rewrite forallb_forall. fold (flat (store m)). split.
  - intros F. split; [auto|]. split; [auto|]. intros i j Hi Hj.
    destruct (mget_some cat kind m i j G Hi Hj) as (x & E & En). apply nth_error_In in En. specialize (F x En).
    destruct x as [v|]; [|discriminate]. exists v. destruct (kind (cat v)) as [k|] eqn:Ek; [|discriminate].
    exists k. split; [exact E|]. split; [reflexivity|]. destruct k; congruence.
  - intros (_ & _ & F) x Hx. apply In_nth_error in Hx as (p & Ep).
    assert (p < rows m * cols m) as L.
    { rewrite <- (len_store cat kind m G). apply nth_error_Some. congruence. }
    pose proof (Nat.div_mod p (rows m) ltac:(lia)) as D.
    pose proof (Nat.mod_upper_bound p (rows m) ltac:(lia)) as M.
    assert (p / rows m < cols m) as C by (apply Nat.div_lt_upper_bound; lia).
    destruct (F _ _ M C) as (v & k & E & Ek & Nk). rewrite (mget_eq cat kind m _ _ G), <- D, Ep in E. injection E as ->.
    rewrite Ek. destruct k; congruence.
Qed.

Theorem C72_construct : forall g r c v,
  cells (@mk V g r c) r c (fun _ _ => Ok None) /\ cells (mk_val cat g r c v) r c (fun _ _ => Ok (Some v)).
Proof.
  intros g r c v. split; (split; [reflexivity|]; split; [reflexivity|]); intros i j Hi Hj.
  - now apply (mk_none cat kind).
  - now apply (fill_val cat kind).
Qed.

Theorem C72_construct_values : forall g r c vs, 0 < r * c -> length vs = r * c -> one_type cat vs ->
  (forall v, In v vs -> kind (cat v) <> None) ->
  exists m, mk_vals cat kind g r c vs = Ok m /\ mreach m /\
    cells m r c (fun i j => match nth_error vs (r * j + i) with Some v => Ok (Some v) | None => Undef end).
Proof.
  intros g r c vs Hp Hl Ho Hk. destruct vs as [|v0 vt] eqn:Evs; [cbn in Hl; lia|]. rewrite <- Evs in *.
  set (s := ST [BK 0 (r * c) (Some (EB (g, 0) (cat v0) vs))] (r * c) 1 g [((g, 0), cat v0)] [] []).
  assert (mk_vals cat kind g r c vs = Ok (MX s r c)) as EM.
  { unfold mk_vals, mk_range. destruct (Nat.eqb_spec (r * c) 0); [lia|]. rewrite Hl, Nat.eqb_refl. cbn [negb].
    rewrite Evs at 1. cbn [bind]. fold s. unfold size. cbn [s cs].
    destruct (Nat.eqb_spec (r * c) 0); [lia|]. unfold data_at, bat. cbn [s bl nth_error deref bind bd].
    unfold dcat, to_mtm. cbn [option_map ecat]. specialize (Hk v0 ltac:(rewrite Evs; now left)).
    destruct (kind (cat v0)); [reflexivity|congruence]. }
  exists (MX s r c). split; [exact EM|]. assert (mreach (MX s r c)) as HM by (eapply m_vals; eauto).
  split; [exact HM|]. split; [auto|]. split; [auto|]. intros i j Hi Hj. good_of HM.
  rewrite (mget_eq cat kind _ i j G). cbn [store rows]. unfold s, flat. cbn [bl]. unfold flatl. cbn [flat_map].
  rewrite app_nil_r. unfold flatb. cbn [bd ev]. rewrite nth_error_map.
  destruct (nth_error vs (r * j + i)) eqn:X; [reflexivity|]. apply nth_error_None in X. nia.
Qed.

End P.

(** ** A concrete matrix *)

Definition xv : Type := nat * nat.
Definition xcat : xv -> nat := fst.
Definition xkind (c : nat) : option mty :=
  match c with 0 => Some KNum | 1 => Some KBool | 2 => Some KStr | 3 => Some KInt | _ => None end.
Definition run1 (o : mop) (m : @mtx xv) : @mtx xv := match mexec xcat xkind o m with Ok m' => m' | _ => m end.

(** 2 rows, 3 columns: 5, "a" / false, empty / 6, 7 (numbers and strings by tag). *)
Definition x0 : @mtx xv := mk 0 2 3.
Definition x1 := run1 (MSetRange 0 0 [(0, 5)]) x0.
Definition x2 := run1 (MSet 1 0 (2, 1)) x1.
Definition x3 := run1 (MSetAt 0 1 (1, 0)) x2.
Definition x4 := run1 (MSetColumn 2 [(0, 6); (0, 7); (0, 8)]) x3.

Lemma x4_reach : mreach xcat xkind x4.
Proof.
  assert (forall m o, mreach xcat xkind m -> mlegal xcat o -> mexec xcat xkind o m = Ok (run1 o m) -> mreach xcat xkind (run1 o m)) as S.
  { intros m o H L E. eapply m_step; eauto. }
  apply S; [|intros x y Hx Hy; cbn in Hx, Hy; intuition subst; reflexivity|vm_compute; reflexivity].
  apply S; [|exact I|vm_compute; reflexivity].
  apply S; [|exact I|vm_compute; reflexivity].
  apply S; [|intros x y Hx Hy; cbn in Hx, Hy; intuition subst; reflexivity|vm_compute; reflexivity].
  apply m_dims.
Qed.

Ltac small H i := let E := fresh "E" in
  destruct i as [|i]; [|destruct i as [|i]; [|destruct i as [|i]; [|exfalso; vm_compute in H; lia]]].

Lemma x4_plain : plain xcat xkind 2 3 x4.
Proof.
  intros i j v Hi Hj E. small Hi i; try lia; small Hj j; try lia; vm_compute in E; try discriminate;
    injection E as <-; split; vm_compute; discriminate.
Qed.
Lemma x4_supported : supported xcat xkind x4.
Proof. intros i j v Hi Hj E. apply (x4_plain i j v); auto. Qed.

(** The cells of the matrix, and a set. *)
Example C54_case :
  map (fun j => map (fun i => mget i j x4) [0; 1]) [0; 1; 2] =
    [[Ok (Some (0, 5)); Ok (Some (2, 1))]; [Ok (Some (1, 0)); Ok None]; [Ok (Some (0, 6)); Ok (Some (0, 7))]] /\
  exists m', mset xcat 1 1 (3, 4) x4 = Ok m' /\ mget 1 1 m' = Ok (Some (3, 4)) /\ mget 0 1 m' = Ok (Some (1, 0)) /\
    mtype xkind 1 1 m' = Ok (Some KInt).
Proof. split; [vm_compute; reflexivity|]. eexists. split; [vm_compute; reflexivity|]. vm_compute. auto. Qed.

Example C54_rows_columns_case :
  mreach xcat xkind x4 /\ rows x4 = 2 /\ cols x4 = 3 /\
  (exists m', mset_row_empty 0 x4 = Ok m' /\ mget 0 2 m' = Ok None /\ mget 1 2 m' = Ok (Some (0, 7))) /\
  (exists m', mset_column_empty 0 x4 = Ok m' /\ mget 1 0 m' = Ok None /\ mget 0 1 m' = Ok (Some (1, 0))) /\
  (exists m', mset_empty_len 1 0 2 x4 = Ok m' /\ mget 0 0 m' = Ok (Some (0, 5)) /\ mget 1 0 m' = Ok None /\ mget 0 1 m' = Ok None).
Proof.
  split; [apply x4_reach|]. split; [reflexivity|]. split; [reflexivity|].
  split; [|split]; eexists; (split; [vm_compute; reflexivity|]); vm_compute; auto.
Qed.

(** Finding X7: a row number beyond the last row is accepted, and another cell is
    written. *)
Theorem C54_row_refuted :
  exists m m', mreach xcat xkind m /\ rows m <= 2 /\ mset xcat 2 0 (0, 9) m = Ok m' /\
    mget 0 1 m <> mget 0 1 m' /\ mget 0 1 m' = Ok (Some (0, 9)).
Proof.
  exists x4. eexists. split; [apply x4_reach|]. split; [vm_compute; lia|]. split; [vm_compute; reflexivity|].
  vm_compute. split; [discriminate|reflexivity].
Qed.

Example C55_case :
  exists m', transpose xcat xkind 5 x4 = Ok m' /\ (rows m', cols m') = (3, 2) /\
    map (fun j => map (fun i => mget i j m') [0; 1; 2]) [0; 1] =
      [[Ok (Some (0, 5)); Ok (Some (1, 0)); Ok (Some (0, 6))]; [Ok (Some (2, 1)); Ok None; Ok (Some (0, 7))]].
Proof. eexists. split; [vm_compute; reflexivity|]. vm_compute. auto. Qed.

(** A matrix with an integer, which is a supported type. *)
Definition xi : @mtx xv := mk_val xcat 0 2 2 (3, 9).
Lemma xi_reach : mreach xcat xkind xi.
Proof. apply m_val. Qed.
Lemma xi_supported : supported xcat xkind xi.
Proof.
  intros i j v Hi Hj E. change (rows xi) with 2 in Hi; change (cols xi) with 2 in Hj; small Hi i; try lia; small Hj j; try lia; vm_compute in E; injection E as <-; vm_compute; discriminate.
Qed.

(** Finding X1: transpose() throws on integers. *)
Theorem C55_transpose_refuted :
  exists m, mreach xcat xkind m /\ supported xcat xkind m /\ transpose xcat xkind 1 m = Throw E_general.
Proof. exists xi. split; [apply xi_reach|]. split; [apply xi_supported|]. vm_compute. reflexivity. Qed.

Example C56_case :
  exists m', mresize xcat xkind 7 3 2 x4 = Ok m' /\
    map (fun j => map (fun i => mget i j m') [0; 1; 2]) [0; 1] =
      [[Ok (Some (0, 5)); Ok (Some (2, 1)); Ok None]; [Ok (Some (1, 0)); Ok None; Ok None]].
Proof. eexists. split; [vm_compute; reflexivity|]. vm_compute. auto. Qed.

Example C56_copy_case :
  mreach xcat xkind x4 /\ plain xcat xkind 2 3 x4 /\
  exists m', mcopy xcat xkind x4 (mk_val xcat 9 3 4 (2, 0)) = Ok m' /\
    map (fun j => map (fun i => mget i j m') [0; 1; 2]) [1; 2; 3] =
      [[Ok (Some (1, 0)); Ok None; Ok (Some (2, 0))]; [Ok (Some (0, 6)); Ok (Some (0, 7)); Ok (Some (2, 0))];
       [Ok (Some (2, 0)); Ok (Some (2, 0)); Ok (Some (2, 0))]].
Proof.
  split; [apply x4_reach|]. split; [apply x4_plain|]. eexists. split; [vm_compute; reflexivity|]. vm_compute. auto.
Qed.

Example C56_values_case :
  exists m', mcopy_vals xcat xkind 2 2 [(3, 1); (3, 2); (3, 3); (3, 4)] x4 = Ok m' /\
    map (fun j => map (fun i => mget i j m') [0; 1]) [0; 1; 2] =
      [[Ok (Some (3, 1)); Ok (Some (3, 2))]; [Ok (Some (3, 3)); Ok (Some (3, 4))]; [Ok (Some (0, 6)); Ok (Some (0, 7))]].
Proof. eexists. split; [vm_compute; reflexivity|]. vm_compute. auto. Qed.

(** Finding X2: copy() and both resize() throw on integers. *)
Theorem C56_copy_refuted :
  exists src m, mreach xcat xkind src /\ supported xcat xkind src /\ mreach xcat xkind m /\
    mcopy xcat xkind src m = Throw E_general.
Proof.
  exists xi, (mk 1 2 2). split; [apply xi_reach|]. split; [apply xi_supported|]. split; [apply m_dims|].
  vm_compute. reflexivity.
Qed.
Theorem C56_resize_refuted :
  exists m, mreach xcat xkind m /\ supported xcat xkind m /\
    mresize xcat xkind 1 3 3 m = Throw E_general /\ mresize_val xcat xkind 1 3 3 (0, 1) m = Throw E_general.
Proof. exists xi. split; [apply xi_reach|]. split; [apply xi_supported|]. vm_compute. auto. Qed.

Example C57_case :
  mreach xcat xkind x4 /\ supported xcat xkind x4 /\
  exists nds, walk_sub xkind 0 1 1 2 x4 = Ok nds /\
    map (fun n => (ntype n, node_cells n)) nds =
      [(Some KBool, [Some (1, 0)]); (None, [None]); (Some KNum, [Some (0, 6); Some (0, 7)])].
Proof.
  split; [apply x4_reach|]. split; [apply x4_supported|]. eexists. split; [vm_compute; reflexivity|]. vm_compute. auto.
Qed.

Example C57_pair_case :
  exists l, walk_pair xkind (mk_val xcat 4 2 3 (0, 3)) x4 = Ok l /\
    map (fun n => (node_cells (fst n), node_cells (snd n))) l =
      [([Some (0, 5)], [Some (0, 3)]); ([Some (2, 1)], [Some (0, 3)]); ([Some (1, 0)], [Some (0, 3)]);
       ([None], [Some (0, 3)]); ([Some (0, 6); Some (0, 7)], [Some (0, 3); Some (0, 3)])].
Proof. eexists. split; [vm_compute; reflexivity|]. vm_compute. auto. Qed.

(** Finding X4: an end row equal to the number of rows is outside the matrix but not
    rejected: cells of the next column are shown, or memory outside is read. *)
Theorem C57_walk_refuted :
  exists m, mreach xcat xkind m /\ supported xcat xkind m /\ rows m <= 2 /\ cols m = 3 /\
    (exists nds, walk_sub xkind 0 0 2 0 m = Ok nds /\
       flat_map node_cells nds = [Some (0, 5); Some (2, 1); Some (1, 0)] /\ mget 0 1 m = Ok (Some (1, 0))) /\
    walk_sub xkind 0 2 2 2 m = Undef.
Proof.
  exists x4. split; [apply x4_reach|]. split; [apply x4_supported|]. split; [vm_compute; lia|]. split; [reflexivity|].
  split; [|vm_compute; reflexivity]. eexists. split; [vm_compute; reflexivity|]. vm_compute. auto.
Qed.
Theorem C57_walk_pair_refuted :
  exists m right, mreach xcat xkind m /\ supported xcat xkind m /\ mreach xcat xkind right /\ supported xcat xkind right /\
    rows m <= 2 /\ rows right <= 2 /\ walk_pair_sub xkind right 0 2 2 2 m = Undef.
Proof.
  exists x4, x4. split; [apply x4_reach|]. split; [apply x4_supported|]. split; [apply x4_reach|].
  split; [apply x4_supported|]. split; [vm_compute; lia|]. split; [vm_compute; lia|]. vm_compute. reflexivity.
Qed.

Example C72_case :
  exists p, mposition (Some 1) 1 2 x4 = Ok p /\ matrix_position p x4 = Ok (1, 2) /\
    numeric xkind x4 = Ok false /\ numeric xkind xi = Ok true /\
    mget_string xkind 1 0 x4 = Ok (2, 1) /\ mget_string xkind 0 0 x4 = Throw E_general.
Proof. eexists. split; [vm_compute; reflexivity|]. vm_compute. auto 6. Qed.

(** The number of a cell (its second component here), its type through a position, and
    the positions after the first cell and after the last one. *)
Example C72_position_case :
  map (fun c => mget_numeric xkind snd 0 (fst c) (snd c) x4) [(0, 0); (1, 0); (1, 1); (1, 2)] = [Ok 5; Ok 0; Ok 0; Ok 7] /\
  exists p q, mposition None 0 0 x4 = Ok p /\ mnext_position p x4 = mposition None 1 0 x4 /\
    mtype_at xkind p x4 = Ok (Some KNum) /\
    mposition None 1 2 x4 = Ok q /\ mnext_position q x4 = Ok (end_position x4).
Proof.
  split; [vm_compute; reflexivity|]. eexists. eexists. split; [vm_compute; reflexivity|].
  split; [vm_compute; reflexivity|]. split; [vm_compute; reflexivity|]. split; vm_compute; reflexivity.
Qed.

(** One query for all the theorems of this file. *)
Definition MtxProps_theorems :=
  (@C54_read, @C54_size, @C54_set, @C54_set_at, @C54_set_empty,
   @C54_set_empty_len, @C54_set_empty_len_zero, @C54_set_empty_at, @C54_set_column_empty,
   @C54_set_row_empty, @C54_set_range, @C54_set_range_at, @C54_set_column,
   @C54_column_out_of_range, @C54_row_wraps, @C55_transpose_partial, @C55_twice_partial,
   @C55_integer_throws, @C56_copy_partial, @C56_clear, @C56_resize_partial,
   @C56_resize_value_partial, @C56_resize_zero, @C56_copy_values, @C56_copy_values_rejects,
   @C56_swap, @C56_copy_constructor, @C56_assignment, @C56_equal_sound,
   @C57_walk_partial, @C57_area_each_once, @C57_walk_rejects_partial, @C57_walk_all,
   @C57_walk_pair, @C57_walk_pair_rejects, @C57_walk_pair_sub_partial, @C72_position_round_trip,
   @C72_get_string, @C72_get_numeric, @C72_type_at, @C72_next_position, @C72_numeric, @C72_construct, @C72_construct_values,
   @C54_row_refuted, @C55_transpose_refuted, @C56_copy_refuted, @C56_resize_refuted,
   @C57_walk_refuted, @C57_walk_pair_refuted).
Print Assumptions MtxProps_theorems.
