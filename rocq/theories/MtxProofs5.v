(** Proofs about multi_type_matrix, fifth part: transpose, and walks over one and two
    matrices. *)
From Coq Require Import List ZArith Lia Bool.
From Verif Require Import Base MtvModel MtvModel2 MtvSpec MtvProofs MtvWrap MtvBridge MtvBridge2
  MtxModel MtxSpec MtxProofs MtxProofs2 MtxProofs3 MtxProofs4.
Import ListNotations.

Section P.
Set Default Proof Using "All".
Context {V : Type}.
Variable cat : V -> nat.
Variable kind : nat -> option mty.
Notation st := (@MtvModel.st V).
Notation eblk := (@MtvModel.eblk V).
Notation mtx := (@MtxModel.mtx V).
Notation node := (@MtxModel.node V).
Notation good := (good cat).
Notation rch := (@reach V cat nm (fun v => v) (fun _ => true) anyop).
Notation mgood := (mgood cat).
Notation plain := (plain cat kind).
Notation cells_set := (cells_set cat).
Notation upd := (upd cat).

(** ** transpose *)

Lemma mtype_eq (m : mtx) i j x : mgood m -> mget i j m = Ok x -> mtype kind i j m = to_mtm kind (option_map cat x).
Proof.
  intros G E. unfold mtype. rewrite (get_type_eq cat) by now apply (mgood_good cat kind).
  unfold mget in E. rewrite E. reflexivity.
Qed.

Lemma mset_upd (m : mtx) i j v : mgood m -> i < rows m -> j < cols m ->
  exists m', mset cat i j v m = Ok m' /\
    upd m m' (fun a b => if (b =? j) && (a =? i) then Some (Ok (Some v)) else None).
Proof.
  intros G Hi Hj. destruct (set_cells cat kind m None (rows m * j + i) v G) as (s' & b & E & CS).
  { rewrite (proj2 G). now apply (pos_lt cat kind). }
  exists (with_store m s'). unfold mset, on_store, get_pos. rewrite E. split; [reflexivity|].
  apply (set_upd cat kind) in CS; auto; [|lia]. eapply (upd_ext cat kind); [exact CS|].
  intros a b' Ha Hb. cbn beta.
  destruct (Nat.eqb_spec b' j), (Nat.eqb_spec a i), (Nat.leb_spec i a), (Nat.ltb_spec a (i + 1)); cbn [andb]; try lia; try reflexivity.
  subst a. now rewrite Nat.sub_diag.
Qed.

Lemma transpose_row (m : mtx) r c i : mgood m -> plain r c m -> i < r -> r <= rows m -> c <= cols m ->
  forall k j t, mgood t -> rows t = cols m -> cols t = rows m -> j + k <= c ->
  (forall a, j <= a < j + k -> mget a i t = Ok None) ->
  exists t', for_each (fun j t => transpose_cell cat kind m i j t) (seq j k) t = Ok t' /\
    upd t t' (fun a b => if (b =? i) && ((j <=? a) && (a <? j + k)) then Some (mget b a m) else None).
Proof.
  intros G P Hi Hr Hc k. induction k as [|k IH]; intros j t Gt Rt Ct Hj Hn.
  { exists t. split; [reflexivity|]. eapply (upd_ext cat kind); [apply (upd_refl cat kind); auto|].
    intros a b _ _. cbn beta.
    destruct (b =? i), (Nat.leb_spec j a), (Nat.ltb_spec a (j + 0)); cbn [andb]; try reflexivity; lia. }
  cbn [seq for_each].
  destruct (mget_some cat kind m i j G ltac:(lia) ltac:(lia)) as (x & Ex & _).
  assert (exists t1, transpose_cell cat kind m i j t = Ok t1 /\
     upd t t1 (fun a b => if (b =? i) && (a =? j) then Some (mget b a m) else None)) as (t1 & E1 & U1).
  { unfold transpose_cell. rewrite (mtype_eq m i j x G Ex). destruct x as [v|]; cbn [option_map].
    - destruct (P i j v Hi ltac:(lia) Ex) as [K1 K2]. unfold to_mtm.
      destruct (mset_upd t j i v Gt ltac:(lia) ltac:(lia)) as (t1 & E1 & U1).
      exists t1. split.
      + unfold mget in Ex. destruct (kind (cat v)) as [[]|]; cbn [bind]; try congruence; rewrite Ex; exact E1.
      + eapply (upd_ext cat kind); [exact U1|]. intros a b Ha Hb. cbn beta.
        destruct (Nat.eqb_spec b i), (Nat.eqb_spec a j); cbn [andb]; try reflexivity. subst. now rewrite Ex.
    - exists t. split; [reflexivity|]. split; [exact Gt|]. split; [auto|]. split; [auto|].
      intros a b Ha Hb. destruct (Nat.eqb_spec b i), (Nat.eqb_spec a j); cbn [andb]; try reflexivity.
      subst. rewrite Ex. apply Hn. lia. }
  rewrite E1. cbn [bind]. destruct U1 as (G1 & R1 & C1 & H1).
  destruct (IH (S j) t1) as (t' & E' & U').
  { exact G1. } { congruence. } { congruence. } { lia. }
  { intros a Ha. rewrite H1 by lia. destruct (Nat.eqb_spec a j); [lia|]. rewrite andb_false_r. apply Hn. lia. }
  exists t'. split; [exact E'|].
  eapply (upd_ext cat kind); [eapply (upd_trans cat kind); [|exact U']|].
  { split; [exact G1|]. split; [exact R1|]. split; [exact C1|exact H1]. }
  intros a b Ha Hb. cbn beta.
  destruct (Nat.eqb_spec b i), (Nat.leb_spec (S j) a), (Nat.leb_spec j a), (Nat.ltb_spec a (S j + k)),
    (Nat.ltb_spec a (j + S k)), (Nat.eqb_spec a j); cbn [andb]; try lia; reflexivity.
Qed.

Lemma transpose_rows (m : mtx) c : mgood m -> plain (rows m) (cols m) m -> c = cols m ->
  forall k i t, mgood t -> rows t = cols m -> cols t = rows m -> i + k <= rows m ->
  (forall a b, a < cols m -> i <= b < i + k -> mget a b t = Ok None) ->
  exists t', for_each (fun i t => for_each (fun j t => transpose_cell cat kind m i j t) (seq 0 c) t) (seq i k) t = Ok t' /\
    upd t t' (fun a b => if (i <=? b) && (b <? i + k) then Some (mget b a m) else None).
Proof.
  intros G P Hc k. induction k as [|k IH]; intros i t Gt Rt Ct Hi Hn.
  { exists t. split; [reflexivity|]. eapply (upd_ext cat kind); [apply (upd_refl cat kind); auto|].
    intros a b _ _. cbn beta.
    destruct (Nat.leb_spec i b), (Nat.ltb_spec b (i + 0)); cbn [andb]; try reflexivity; lia. }
  cbn [seq for_each].
  destruct (transpose_row m _ _ i G P ltac:(lia) ltac:(lia) ltac:(lia) c 0 t Gt Rt Ct ltac:(lia)) as (t1 & E1 & G1 & R1 & C1 & H1).
  { intros a Ha. apply Hn; lia. }
  rewrite E1. cbn [bind].
  destruct (IH (S i) t1) as (t' & E' & U').
  { exact G1. } { congruence. } { congruence. } { lia. }
  { intros a b Ha Hb. rewrite H1 by lia. destruct (Nat.eqb_spec b i); [lia|]. apply Hn; lia. }
  exists t'. split; [exact E'|].
  eapply (upd_ext cat kind); [eapply (upd_trans cat kind); [|exact U']|].
  { split; [exact G1|]. split; [exact R1|]. split; [exact C1|exact H1]. }
  intros a b Ha Hb. cbn beta. change (0 <=? a) with true.
  destruct (Nat.eqb_spec b i), (Nat.leb_spec (S i) b), (Nat.leb_spec i b), (Nat.ltb_spec b (S i + k)),
    (Nat.ltb_spec b (i + S k)), (Nat.ltb_spec a (0 + c)); cbn [andb]; try lia; reflexivity.
Qed.

Lemma mk_none g r c i j : i < r -> j < c -> mget i j (@mk V g r c) = Ok None.
Proof.
  intros Hi Hj. rewrite (mget_eq cat kind) by apply (mgood_mk cat kind).
  cbn [mk store rows]. assert (r * j + i < r * c) as L by nia.
  unfold mk_size. destruct (Nat.eqb_spec (r * c) 0); [lia|].
  unfold flat. cbn [bl]. unfold flatl. cbn [flat_map]. rewrite app_nil_r. unfold flatb. cbn [bd bs].
  rewrite nth_error_repeat by exact L. reflexivity.
Qed.

Lemma fill_val g r c v i j : i < r -> j < c -> mget i j (mk_val cat g r c v) = Ok (Some v).
Proof.
  intros Hi Hj. rewrite (mget_eq cat kind) by apply (mgood_mk_val cat kind).
  cbn [mk_val store rows]. assert (r * j + i < r * c) as L by nia.
  unfold mk_fill. destruct (Nat.eqb_spec (r * c) 0); [lia|].
  unfold flat. cbn [bl]. unfold flatl. cbn [flat_map]. rewrite app_nil_r. unfold flatb. cbn [bd bs ev].
  rewrite nth_error_map, nth_error_repeat by exact L. reflexivity.
Qed.

Lemma transpose_spec g (m : mtx) : mgood m -> plain (rows m) (cols m) m ->
  exists m', transpose cat kind g m = Ok m' /\ mgood m' /\ rows m' = cols m /\ cols m' = rows m /\
    forall i j, i < rows m -> j < cols m -> mget j i m' = mget i j m.
Proof.
  intros G P. unfold transpose.
  destruct (transpose_rows m (cols m) G P eq_refl (rows m) 0 (mk g (cols m) (rows m)) (mgood_mk cat kind _ _ _)
              eq_refl eq_refl ltac:(lia)) as (t & E & Gt & Rt & Ct & Ht).
  { intros a b Ha Hb. apply mk_none; lia. }
  rewrite E. cbn [bind mswap swap_all snd]. eexists. split; [reflexivity|]. cbn [rows cols].
  cbn [mk rows cols] in Rt, Ct.
  assert (MX (store t) (rows t) (cols t) = t) as Et by now destruct t. rewrite Et.
  split; [exact Gt|]. split; [exact Rt|]. split; [exact Ct|].
  intros i j Hi Hj. cbn [mk rows cols] in Ht. rewrite Ht by auto.
  destruct (Nat.ltb_spec i (0 + rows m)); [reflexivity|lia].
Qed.

(** ** walk over two matrices *)

Definition pair_ok (n : node * node) : Prop :=
  node_ok cat kind (fst n) /\ node_ok cat kind (snd n) /\ nsize (fst n) = nsize (snd n).

Definition cells1 (l : list (node * node)) := flat_map (fun n => node_cells (fst n)) l.
Definition cells2 (l : list (node * node)) := flat_map (fun n => node_cells (snd n)) l.

Lemma spot_position (s : st) p i k z d h : good s -> spot s p i k z d -> position h p s = Ok (i, k).
Proof.
  intros G (q & b & t & E & <- & <- & L & _). apply (pobj_position cat); auto. left. exists q, b, t. auto.
Qed.

Lemma spot_advance (s : st) p i k z d n : good s -> spot s p i k z d -> p + n < cs s ->
  exists i' k' z' d', advance_position (i, k) (Z.of_nat n) s = Ok (i', k') /\ spot s (p + n) i' k' z' d'.
Proof.
  intros G S Hp. pose proof (spot_end cat kind _ _ _ _ _ _ G S) as He.
  rewrite (advance_spec cat s None i k p); auto.
  - replace (Z.to_nat (Z.of_nat p + Z.of_nat n)) with (p + n) by lia.
    destruct (spot_at cat kind s None (p + n) G Hp) as (i' & k' & z' & d' & E & S'). eauto 6.
  - lia.
  - eapply spot_position; eauto.
  - lia.
Qed.

Lemma spot_advance_end (s : st) p i k z d n : good s -> spot s p i k z d -> p + n <= cs s ->
  exists q, advance_position (i, k) (Z.of_nat n) s = Ok q.
Proof.
  intros G S Hp. destruct (Nat.eq_dec (p + n) (cs s)) as [E|E].
  - exists (nblk s, 0). rewrite (advance_spec cat s None i k p); auto.
    + replace (Z.to_nat (Z.of_nat p + Z.of_nat n)) with (cs s) by lia. apply position_end.
    + lia.
    + eapply spot_position; eauto.
    + lia.
  - destruct (spot_advance s p i k z d n G S) as (i' & k' & z' & d' & E' & _); [lia|]. eauto.
Qed.

Lemma walk_two_spec (s1 s2 : st) : good s1 -> good s2 -> cs s1 = cs s2 ->
  (forall v, In (Some v) (flat s1) -> kind (cat v) <> None) ->
  (forall v, In (Some v) (flat s2) -> kind (cat v) <> None) ->
  forall fuel p i1 k1 z1 d1 i2 k2 z2 d2 rem,
  spot s1 p i1 k1 z1 d1 -> spot s2 p i2 k2 z2 d2 -> 0 < rem -> rem <= fuel -> p + rem = cs s1 ->
  exists l, walk_two kind fuel (i1, k1) (i2, k2) rem s1 s2 = Ok l /\ Forall pair_ok l /\
    cells1 l = skipn p (flat s1) /\ cells2 l = skipn p (flat s2).
Proof.
  intros G1 G2 Ec K1 K2 fuel. induction fuel as [|fuel IH]; intros p i1 k1 z1 d1 i2 k2 z2 d2 rem S1 S2 Hr Hf Hp; [lia|].
  destruct rem as [|rem']; [lia|]. cbn [walk_two]. set (rem := S rem') in *.
  destruct (spot_left cat kind _ _ _ _ _ _ S1) as [El1 Lk1]. destruct (spot_left cat kind _ _ _ _ _ _ S2) as [El2 Lk2].
  pose proof (spot_end cat kind _ _ _ _ _ _ G1 S1) as He1. pose proof (spot_end cat kind _ _ _ _ _ _ G2 S2) as He2.
  rewrite El1, El2. cbn [bind]. set (sec := Nat.min (z1 - k1) (z2 - k2)).
  destruct (spot_node cat kind s1 p i1 k1 z1 d1 sec G1 S1 ltac:(lia)) as (n1 & E1 & T1 & O1 & C1 & _).
  { intros v Hv. apply K1. eapply in_section; eauto. }
  destruct (spot_node cat kind s2 p i2 k2 z2 d2 sec G2 S2 ltac:(lia)) as (n2 & E2 & T2 & O2 & C2 & _).
  { intros v Hv. apply K2. eapply in_section; eauto. }
  rewrite E1, E2. cbn [bind].
  assert (pair_ok (n1, n2)) as PO.
  { split; [exact O1|]. split; [exact O2|]. cbn [fst snd]. now rewrite T1, T2. }
  assert (forall (l : list (option V)), skipn p l = firstn sec (skipn p l) ++ skipn (p + sec) l) as Sk.
  { intros l. rewrite <- (firstn_skipn sec (skipn p l)) at 1. f_equal. now rewrite (skipn_add cat kind). }
  destruct (Nat.leb_spec sec rem) as [Ls|Ls]; [|lia].
  destruct (Nat.eq_dec rem sec) as [Eq|Nq].
  - destruct (spot_advance_end s1 p i1 k1 z1 d1 sec G1 S1 ltac:(lia)) as (q1 & A1).
    destruct (spot_advance_end s2 p i2 k2 z2 d2 sec G2 S2 ltac:(lia)) as (q2 & A2).
    rewrite A1, A2. cbn [bind]. replace (rem - sec) with 0 by lia.
    exists [(n1, n2)]. split; [destruct fuel; reflexivity|]. split; [auto|]. unfold cells1, cells2. cbn [flat_map fst snd].
    rewrite C1, C2, !app_nil_r.
    split; (etransitivity; [|symmetry; apply Sk]); rewrite (skipn_all2 (n := p + sec)), app_nil_r; auto;
      rewrite ?(len_flat cat s1 G1), ?(len_flat cat s2 G2); lia.
  - destruct (spot_advance s1 p i1 k1 z1 d1 sec G1 S1 ltac:(lia)) as (a1 & b1 & c1 & e1 & A1 & S1').
    destruct (spot_advance s2 p i2 k2 z2 d2 sec G2 S2 ltac:(lia)) as (a2 & b2 & c2 & e2 & A2 & S2').
    rewrite A1, A2. cbn [bind].
    destruct (IH _ _ _ _ _ _ _ _ _ (rem - sec) S1' S2' ltac:(lia) ltac:(lia) ltac:(lia)) as (l & El & Ol & Cl1 & Cl2).
    rewrite El. cbn [bind]. exists ((n1, n2) :: l). split; [reflexivity|]. split; [auto|].
    unfold cells1, cells2 in *. cbn [flat_map fst snd]. now rewrite Cl1, Cl2, C1, C2, <- !Sk.
Qed.

Lemma walk_two_rows_spec (s1 s2 : st) : good s1 -> good s2 ->
  forall fuel p1 p2 i1 k1 z1 d1 i2 k2 z2 d2 rem,
  spot s1 p1 i1 k1 z1 d1 -> spot s2 p2 i2 k2 z2 d2 -> 0 < rem -> rem < fuel -> p1 + rem <= cs s1 -> p2 + rem <= cs s2 ->
  (forall v, In (Some v) (firstn rem (skipn p1 (flat s1))) -> kind (cat v) <> None) ->
  (forall v, In (Some v) (firstn rem (skipn p2 (flat s2))) -> kind (cat v) <> None) ->
  exists l pp, walk_two_rows kind fuel (i1, k1) (i2, k2) rem s1 s2 = Ok (l, pp) /\ Forall pair_ok l /\
    cells1 l = firstn rem (skipn p1 (flat s1)) /\ cells2 l = firstn rem (skipn p2 (flat s2)).
Proof.
  intros G1 G2 fuel. induction fuel as [|fuel IH]; intros p1 p2 i1 k1 z1 d1 i2 k2 z2 d2 rem S1 S2 Hr Hf Hp1 Hp2 K1 K2; [lia|].
  cbn [walk_two_rows].
  destruct (spot_left cat kind _ _ _ _ _ _ S1) as [El1 Lk1]. destruct (spot_left cat kind _ _ _ _ _ _ S2) as [El2 Lk2].
  rewrite El1, El2. cbn [bind]. set (sec := Nat.min (Nat.min (z1 - k1) (z2 - k2)) rem).
  destruct (spot_node cat kind s1 p1 i1 k1 z1 d1 sec G1 S1 ltac:(lia)) as (n1 & E1 & T1 & O1 & C1 & _).
  { intros v Hv. apply K1. eapply (in_firstn_le cat kind); [|exact Hv]. lia. }
  destruct (spot_node cat kind s2 p2 i2 k2 z2 d2 sec G2 S2 ltac:(lia)) as (n2 & E2 & T2 & O2 & C2 & _).
  { intros v Hv. apply K2. eapply (in_firstn_le cat kind); [|exact Hv]. lia. }
  rewrite E1, E2. cbn [bind].
  assert (pair_ok (n1, n2)) as PO.
  { split; [exact O1|]. split; [exact O2|]. cbn [fst snd]. now rewrite T1, T2. }
  destruct (Nat.eqb_spec (rem - sec) 0) as [Z|Z].
  - destruct (spot_advance_end s1 p1 i1 k1 z1 d1 sec G1 S1 ltac:(lia)) as (q1 & A1).
    destruct (spot_advance_end s2 p2 i2 k2 z2 d2 sec G2 S2 ltac:(lia)) as (q2 & A2).
    rewrite A1, A2. cbn [bind]. exists [(n1, n2)], (q1, q2). split; [reflexivity|]. split; [auto|].
    unfold cells1, cells2. cbn [flat_map fst snd]. rewrite C1, C2, !app_nil_r. split; f_equal; lia.
  - destruct (spot_advance s1 p1 i1 k1 z1 d1 sec G1 S1 ltac:(lia)) as (a1 & b1 & c1 & e1 & A1 & S1').
    destruct (spot_advance s2 p2 i2 k2 z2 d2 sec G2 S2 ltac:(lia)) as (a2 & b2 & c2 & e2 & A2 & S2').
    rewrite A1, A2. cbn [bind].
    assert (forall (l : list (option V)) q, firstn rem (skipn q l) = firstn sec (skipn q l) ++ firstn (rem - sec) (skipn (q + sec) l)) as Sk.
    { intros l q. transitivity (firstn (sec + (rem - sec)) (skipn q l)); [f_equal; lia|].
      now rewrite (firstn_add cat kind), (skipn_add cat kind). }
    destruct (IH _ _ _ _ _ _ _ _ _ _ (rem - sec) S1' S2' ltac:(lia) ltac:(lia) ltac:(lia) ltac:(lia)) as (l & pp & El & Ol & Cl1 & Cl2).
    { intros v Hv. apply K1. rewrite Sk. apply in_or_app. now right. }
    { intros v Hv. apply K2. rewrite Sk. apply in_or_app. now right. }
    rewrite El. cbn [bind]. exists ((n1, n2) :: l), pp. split; [reflexivity|]. split; [auto|].
    unfold cells1, cells2 in *. cbn [flat_map fst snd]. now rewrite Cl1, Cl2, C1, C2, <- !Sk.
Qed.

Lemma walk_two_cols_spec (m right : mtx) i n : mgood m -> mgood right -> supported cat kind m -> supported cat kind right ->
  0 < n -> i + n <= rows m -> i + n <= rows right ->
  forall k j p1 p2, j + k <= cols m -> j + k <= cols right ->
  exists l, walk_two_cols kind (seq j k) i n p1 p2 m right = Ok l /\ Forall pair_ok l /\
    map Ok (cells1 l) = area m i n j k /\ map Ok (cells2 l) = area right i n j k.
Proof.
  intros G1 G2 S1 S2 Hn Hi1 Hi2 k. induction k as [|k IH]; intros j p1 p2 Hj1 Hj2.
  { exists []. repeat split; auto. }
  cbn [seq walk_two_cols].
  destruct (mpos_spot cat kind m (Some (fst p1)) i j G1 ltac:(lia) ltac:(lia)) as (b1 & o1 & z1 & d1 & E1 & Sp1).
  destruct (mpos_spot cat kind right (Some (fst p2)) i j G2 ltac:(lia) ltac:(lia)) as (b2 & o2 & z2 & d2 & E2 & Sp2).
  rewrite E1, E2. cbn [bind].
  assert (rows m * j + rows m <= rows m * cols m) as L1 by nia.
  assert (rows right * j + rows right <= rows right * cols right) as L2 by nia.
  destruct (walk_two_rows_spec (store m) (store right) (mgood_good cat kind m G1) (mgood_good cat kind right G2)
     (S n) _ _ _ _ _ _ _ _ _ _ n Sp1 Sp2 Hn ltac:(lia)) as (l & pp & E & O & C1 & C2).
  { rewrite (proj2 G1). lia. } { rewrite (proj2 G2). lia. }
  { intros v Hv. apply (supported_in cat kind m S1 G1 i n j v); auto. lia. }
  { intros v Hv. apply (supported_in cat kind right S2 G2 i n j v); auto. lia. }
  rewrite E. cbn [bind].
  destruct (IH (S j) (fst pp) (snd pp) ltac:(lia) ltac:(lia)) as (l2 & E' & O' & C1' & C2').
  rewrite E'. cbn [bind]. exists (l ++ l2). split; [reflexivity|]. split; [apply Forall_app; auto|].
  unfold cells1, cells2 in *. rewrite !flat_map_app, !map_app, C1', C2', C1, C2. unfold area. cbn [seq flat_map].
  split; f_equal; apply (column_cells cat kind); auto; lia.
Qed.

(** ** walk over all blocks *)

Lemma walk_blocks_spec l : forall p, wfl cat p l ->
  (forall v, In (Some v) (flatl l) -> kind (cat v) <> None) ->
  exists nds, walk_blocks kind l = Ok nds /\ Forall (node_ok cat kind) nds /\ flat_map node_cells nds = flatl l.
Proof.
  induction l as [|b t IH]; intros p W K; cbn [walk_blocks].
  { exists []. auto. }
  cbn [wfl] in W. destruct W as (_ & O & W).
  assert (forall v, In (Some v) (flatb b) -> kind (cat v) <> None) as Kb.
  { intros v Hv. apply K. rewrite flatl_cons. apply in_or_app. now left. }
  destruct (IH _ W) as (nds & E & F & C).
  { intros v Hv. apply K. rewrite flatl_cons. apply in_or_app. now right. }
  pose proof (flatb_length cat b O) as Lb. destruct O as [Z O].
  assert (exists k, to_mtm kind (dcat (bd b)) = Ok k /\ node_ok cat kind (ND k 0 (bs b) (bd b)) /\
            node_cells (ND k 0 (bs b) (bd b)) = flatb b) as (k & Ek & Ok1 & Ck).
  { unfold flatb, okd in *. destruct (bd b) as [e|]; unfold to_mtm, dcat; cbn [option_map].
    - destruct O as [Le Ae]. unfold all_cat in Ae. rewrite forallb_forall in Ae.
      rewrite map_length in Lb.
      assert (forall v, In v (ev e) -> cat v = ecat e) as A by (intros v Hv; now apply Nat.eqb_eq, Ae).
      destruct (ev e) as [|v0 vs] eqn:Ev; [cbn in Lb; lia|].
      assert (kind (ecat e) <> None) as K0.
      { rewrite <- (A v0) by now left. apply Kb. now left. }
      destruct (kind (ecat e)) as [y|] eqn:Ey; [|congruence]. eexists. split; [reflexivity|].
      unfold node_ok, node_cells. cbn [nsize ndata noff ntype skipn]. rewrite Ev.
      rewrite firstn_all2 by lia. split; [|reflexivity].
      split; [lia|]. split; [now rewrite map_length|].
      intros x Hx. apply in_map_iff in Hx as (v & <- & Hv). cbn [kind_of]. rewrite (A v Hv), Ey. reflexivity.
    - exists None. split; [reflexivity|]. unfold node_ok, node_cells. cbn [nsize ndata noff ntype].
      split; [|reflexivity]. split; [lia|]. split; [exact Lb|]. intros x Hx. apply repeat_spec in Hx as ->. reflexivity. }
  rewrite Ek. cbn [bind]. rewrite E. cbn [bind]. eexists. split; [reflexivity|]. split; [auto|].
  cbn [flat_map]. rewrite Ck, C, flatl_cons. reflexivity.
Qed.
End P.
