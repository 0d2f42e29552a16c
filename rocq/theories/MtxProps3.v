(** Equality of multi_type_matrix (C90). *)
From Coq Require Import List ZArith Lia Bool.
From Verif Require Import Base MtvModel MtvModel2 MtvSpec MtvProofs MtvWrap MtvBridge MtvBridge2 MtvProps
  MtxModel MtxSpec MtxProofs MtxProofs2 MtxProofs3 MtxProofs4 MtxProofs5 MtxProps.
Import ListNotations.

Section P.
Set Default Proof Using "All".
Context {V : Type}.
Variable cat : V -> nat.
Variable kind : nat -> option mty.
Notation st := (@MtvModel.st V).
Notation mtx := (@MtxModel.mtx V).
Notation mreach := (mreach cat kind).
Notation mgood := (mgood cat).
Notation good := (good cat).
Notation plain := (plain cat kind).
Notation rch := (@reach V cat nm (fun v => v) (fun _ => true) anyop).

(** ** Specification *)

(** The type of the cell with number [p] in column-major order; [None] if it is
    empty or does not exist. *)
Definition ctype (m : mtx) (p : nat) : option nat :=
  match mget (p mod rows m) (p / rows m) m with Ok (Some v) => Some (cat v) | _ => None end.

(** Writing the values [vs] from cell number [p] on starts on a cell of their type,
    ends on a cell of another type and is followed by a cell of their type
    (finding M4). *)
Definition splits (m : mtx) (p : nat) (vs : list V) : Prop :=
  match vs with
  | [] => False
  | v :: r => ctype m p = Some (cat v) /\ ctype m (p + length r) <> Some (cat v) /\
              ctype m (p + S (length r)) = Some (cat v)
  end.

(** The calls for which the theorem is stated: everything but writing a range of
    cells as in finding M4; a copy of values into an area writes one range per
    column. *)
Definition tame (m : mtx) (o : mop) : Prop :=
  match o with
  | MSetRange i j vs | MSetRangeAt i j vs => ~ splits m (rows m * j + i) vs
  | MSetColumn j vs => ~ splits m (rows m * j) (firstn (rows m) vs)
  | MCopyVals r c vs => forall j, j < c -> ~ splits m (rows m * j) (firstn r (skipn (r * j) vs))
  | MResize _ r c | MResizeVal _ r c _ => plain (Nat.min r (rows m)) (Nat.min c (cols m)) m
  | _ => True
  end.

(** The calls that replace the whole matrix by a new one. *)
Definition renews (o : @mop V) : Prop :=
  match o with MTranspose _ | MResize _ _ _ | MResizeVal _ _ _ _ | MClear => True | _ => False end.

(** Matrices built by these calls; a call that replaces the whole matrix may start
    from any matrix, and a matrix may be copied into one whose cells are all empty or
    all of one type. *)
Inductive tidy : mtx -> Prop :=
| t_default g : tidy (mk0 g)
| t_dims g r c : tidy (mk g r c)
| t_val g r c v : tidy (mk_val cat g r c v)
| t_vals g r c vs m : one_type cat vs -> mk_vals cat kind g r c vs = Ok m -> tidy m
| t_copy g m m' : tidy m -> mk_copy g m = Ok m' -> tidy m'
| t_assign g m other m' : mreach m -> tidy other -> massign g m other = Ok m' -> tidy m'
| t_step m o m' : tidy m -> mlegal cat o -> tame m o -> mexec cat kind o m = Ok m' -> tidy m'
| t_renew m o m' : mreach m -> renews o -> tame m o -> mexec cat kind o m = Ok m' -> tidy m'
| t_copy_from src m t m' : mreach src -> tidy m ->
    plain (Nat.min (rows m) (rows src)) (Nat.min (cols m) (cols src)) src ->
    (forall p, p < rows m * cols m -> ctype m p = t) -> mcopy cat kind src m = Ok m' -> tidy m'.

(** ** Proofs *)

Lemma ctype_eq (m : mtx) p : mgood m -> 0 < rows m -> ctype m p = type_at cat (flat (store m)) p.
Proof.
  intros G H. unfold ctype, type_at. rewrite (mget_eq cat kind m _ _ G).
  rewrite <- (Nat.div_mod p (rows m)) by lia. destruct (nth_error _ p) as [[v|]|]; reflexivity.
Qed.

Lemma canon_exec (o : op) (s s' : st) : good s -> legal cat nm o (flat s) -> exec cat nm o s = Ok s' ->
  canon s -> ~ unmerged cat (flat s) o -> canon s'.
Proof.
  intros G L E C U. pose proof (exec_spec cat nm o s G L) as H.
  destruct (spec o (flat s)) as [l'|]; rewrite E in H; [|discriminate]. cbn [wp] in H.
  destruct H as (_ & _ & H & _). now apply H.
Qed.

Lemma canon_set (s s' : st) h p v b : good s -> canon s -> h = None \/ flat s <> [] ->
  set cat nm h p v s = Ok (s', b) -> canon s'.
Proof.
  intros G C H E. apply (canon_exec (OSet h p v) s); [exact G|exact H|cbn [exec]; apply (drop_eq cat kind _ _ b E)|exact C|intros X; exact X].
Qed.
Lemma canon_set_empty (s s' : st) h p q b : good s -> canon s -> h = None \/ flat s <> [] ->
  set_empty nm h p q s = Ok (s', b) -> canon s'.
Proof.
  intros G C H E. apply (canon_exec (OSetEmpty h p q) s); [exact G|exact H|cbn [exec]; apply (drop_eq cat kind _ _ b E)|exact C|intros X; exact X].
Qed.
Lemma canon_set_range (s s' : st) h p vs b : good s -> canon s -> one_type cat vs ->
  ~ unmerged cat (flat s) (OSetRange h p vs) -> set_range cat nm h p vs s = Ok (s', b) -> canon s'.
Proof.
  intros G C H U E. apply (canon_exec (OSetRange h p vs) s); [exact G|exact H|cbn [exec]; apply (drop_eq cat kind _ _ b E)|exact C|exact U].
Qed.

Lemma canon_range_m (m : mtx) s' h p vs b : mgood m -> canon (store m) -> one_type cat vs -> ~ splits m p vs ->
  set_range cat nm h p vs (store m) = Ok (s', b) -> canon s'.
Proof.
  intros G C O S E. apply (canon_set_range (store m) s' h p vs b); auto; [now apply (mgood_good cat kind)|].
  intros U. apply S. destruct vs as [|v r]; [exact U|]. cbn [unmerged splits] in *.
  destruct (Nat.eq_dec (rows m) 0) as [Z|Z].
  - assert (flat (store m) = []) as F.
    { apply length_zero_iff_nil. rewrite (len_store cat kind m G), Z. reflexivity. }
    rewrite F in U. destruct U as (U & _). unfold type_at in U. destruct p; discriminate.
  - rewrite !(ctype_eq m) by (auto; lia). exact U.
Qed.

(** *** copy into a matrix of equal cells *)

Lemma type_at_splice lp n (x l : list (option V)) q : lp + n <= length l -> length x = n -> lp + n <= q ->
  type_at cat (splice lp n x l) q = type_at cat l q.
Proof.
  intros H1 H2 H3. unfold type_at. rewrite nth_splice_same by auto.
  destruct (Nat.ltb_spec q (lp + n)); [lia|]. now rewrite andb_false_r.
Qed.

Lemma copy_rows_canon src t : good src -> forall fuel dst p i k z d lp pi pk pz pd rem dst' o,
  spot src p i k z d -> good dst -> spot dst lp pi pk pz pd -> 0 < rem -> rem < fuel ->
  p + rem <= cs src -> lp + rem <= cs dst ->
  (forall v, In (Some v) (firstn rem (skipn p (flat src))) -> kind (cat v) <> None /\ kind (cat v) <> Some KInt) ->
  canon dst -> (forall q, lp <= q < cs dst -> type_at cat (flat dst) q = t) ->
  copy_rows cat kind fuel src (i, k) (pi, pk) rem dst = Ok (dst', o) -> canon dst'.
Proof.
  intros G fuel. induction fuel as [|fuel IH]; intros dst p i k z d lp pi pk pz pd rem dst' o Sp Gd Sd Hr Hf Hp Hlp Hk Cd Ht E0; [lia|].
  cbn [copy_rows] in E0. destruct (spot_left cat kind _ _ _ _ _ _ Sp) as [El Lk]. rewrite El in E0. cbn [bind] in E0.
  set (sec := Nat.min (z - k) rem) in *.
  destruct (spot_node cat kind src p i k z d sec G Sp) as (nd & E & En & Ok1 & C & T).
  { lia. } { intros v Hv. apply Hk. eapply in_firstn_le; [exact cat|exact kind| |exact Hv]. lia. }
  rewrite E in E0. cbn [bind] in E0. rewrite (spot_logical cat kind dst lp _ _ _ _ Gd Sd) in E0. cbn [bind] in E0.
  destruct (copy_rows_spec cat kind src G (S sec) dst p i k z d lp pi pk pz pd sec Sp Gd Sd) as (d1 & o1 & E1 & G1 & F1 & R1 & O1);
    try lia.
  { intros v Hv. apply Hk. eapply in_firstn_le; [exact cat|exact kind| |exact Hv]. lia. }
  cbn [copy_rows] in E1. rewrite El in E1. cbn [bind] in E1.
  replace (Nat.min (z - k) sec) with sec in E1 by lia.
  rewrite E in E1. cbn [bind] in E1. rewrite (spot_logical cat kind dst lp _ _ _ _ Gd Sd) in E1. cbn [bind] in E1.
  match type of E1 with bind ?X _ = _ => destruct X as [[d2 b]| |] eqn:EX end; cbn [bind] in E1, E0; try discriminate.
  assert (d2 = d1) as ->.
  { destruct (size d2 <=? lp + sec); [congruence|].
    destruct (position _ _ d2) as [q| |]; cbn [bind] in E1; try discriminate.
    rewrite Nat.sub_diag in E1. cbn [Nat.eqb] in E1. congruence. }
  clear E1.
  assert (length (firstn sec (skipn p (flat src))) = sec) as Lsec.
  { rewrite firstn_length, skipn_length, (len_flat cat src G). lia. }
  assert (size d1 = cs dst) as Hs1.
  { unfold size. rewrite <- (len_flat cat d1 G1), F1, splice_len; rewrite ?(len_flat cat dst Gd); auto. lia. }
  assert (flat dst <> []) as Hne.
  { intros X. pose proof (len_flat cat dst Gd) as Y. rewrite X in Y. cbn in Y. lia. }
  assert (canon d1) as C1.
  { assert (forall vs, node_vals nd = Ok vs -> set_range cat nm (Some (Some (fst (pi, pk)))) lp vs dst = Ok (d1, b) -> canon d1) as HV.
    { intros vs Ev Es. rewrite En in Ev. unfold node_vals in Ev. cbn [ndata noff nsize] in Ev.
      destruct d as [e|]; cbn [deref bind] in Ev; [|discriminate].
      destruct (spot_cat cat kind _ _ _ _ _ _ G Sp) as [Le Ae].
      destruct (_ <=? _) in Ev; [|discriminate]. injection Ev as Ev.
      assert (map Some vs = firstn sec (skipn p (flat src))) as Em.
      { rewrite <- C, En, <- Ev. reflexivity. }
      assert (length vs = sec) as Lv by (rewrite <- (map_length Some), Em; exact Lsec).
      eapply (canon_set_range dst); [exact Gd|exact Cd| | |exact Es].
      - rewrite <- Ev. apply (one_type_sub cat kind e); [exact Ae|]. intros v Hv. eapply in_section; eauto.
      - cbn [unmerged fst]. destruct vs as [|v r]; [auto|]. intros (_ & U2 & U3). cbn [length] in Lv.
        rewrite Ht in U2 by lia.
        destruct (Nat.lt_ge_cases (lp + S (length r)) (cs dst)) as [L|L].
        + rewrite Ht in U3 by lia. congruence.
        + unfold type_at in U3. destruct (nth_error (flat dst) (lp + S (length r))) as [y|] eqn:Y; [|discriminate].
          assert (lp + S (length r) < length (flat dst)) by (apply nth_error_Some; congruence).
          rewrite (len_flat cat dst Gd) in *. lia. }
    destruct (ntype nd) as [[]|]; try discriminate.
    1-3: destruct (node_vals nd) as [vs| |] eqn:Ev; cbn [bind] in EX; try discriminate; now apply (HV vs).
    eapply canon_set_empty; [exact Gd|exact Cd|right; exact Hne|exact EX]. }
  rewrite Hs1 in E0. destruct (Nat.leb_spec (cs dst) (lp + sec)) as [L|L]; [congruence|].
  destruct (spot_at cat kind d1 (Some (Some b)) (lp + sec) G1) as (qi & qk & qz & qd & Eq & Sq).
  { unfold size in Hs1. lia. }
  rewrite Eq in E0. cbn [bind fst] in E0.
  destruct (Nat.eqb_spec (rem - sec) 0) as [Z|Z]; [congruence|].
  assert (sec = z - k) as Es by lia.
  destruct (spot_next cat kind src p i k z d G Sp ltac:(lia)) as (z' & d' & Sp'). rewrite <- Es in Sp'.
  unfold size in Hs1.
  eapply (IH d1); [exact Sp'|exact G1|exact Sq| | | | | |exact C1| |exact E0]; try lia.
  - intros v Hv. apply Hk. replace rem with (sec + (rem - sec)) by lia. rewrite (firstn_add cat kind).
    apply in_or_app. right. rewrite (skipn_add cat kind). exact Hv.
  - intros q Hq. rewrite F1, type_at_splice; rewrite ?(len_flat cat dst Gd); auto; try lia. apply Ht. lia.
Qed.

Lemma copy_cols_canon (src : mtx) r c t : mgood src -> plain r c src -> 0 < r -> r <= rows src -> c <= cols src ->
  forall k j m ps pd m', mgood m -> r <= rows m -> c <= cols m -> j + k <= c ->
  canon (store m) -> (forall q, rows m * j <= q < cs (store m) -> type_at cat (flat (store m)) q = t) ->
  copy_cols cat kind (seq j k) r m src ps pd = Ok m' -> canon (store m').
Proof.
  intros Gs Ps Hr Hrs Hcs k. induction k as [|k IH]; intros j m ps pd m' Gm Hrm Hcm Hj Cm Ht E0.
  { cbn [seq copy_cols] in E0. now injection E0 as <-. }
  cbn [seq copy_cols] in E0.
  destruct (mpos_spot cat kind m (Some (fst pd)) 0 j Gm ltac:(lia) ltac:(lia)) as (di & dk & dz & dd & Ed & Sd).
  destruct (mpos_spot cat kind src (Some (fst ps)) 0 j Gs ltac:(lia) ltac:(lia)) as (si & sk & sz & sd & Es & Ss).
  rewrite Ed, Es in E0. cbn [bind] in E0.
  assert (rows m * j + rows m <= rows m * cols m) as L1 by nia.
  assert (rows src * j + rows src <= rows src * cols src) as L2 by nia.
  rewrite Nat.add_0_r in Sd, Ss.
  assert (forall v, In (Some v) (firstn r (skipn (rows src * j) (flat (store src)))) ->
            kind (cat v) <> None /\ kind (cat v) <> Some KInt) as Hk.
  { intros v Hv. apply (plain_in cat kind src r c Ps Gs r j v); auto; lia. }
  destruct (copy_rows_spec cat kind (store src) (mgood_good cat kind src Gs) (S r) (store m) _ _ _ _ _ _ _ _ _ _ r
              Ss (mgood_good cat kind m Gm) Sd ltac:(lia) ltac:(lia)) as (s' & o & E & G' & F & R & O); auto.
  { rewrite (proj2 Gs). lia. } { rewrite (proj2 Gm). lia. }
  assert (canon s') as C'.
  { eapply (copy_rows_canon (store src) t (mgood_good cat kind src Gs) (S r) (store m));
      [exact Ss|exact (mgood_good cat kind m Gm)|exact Sd| | | | |exact Hk|exact Cm|exact Ht|exact E]; try lia.
    - rewrite (proj2 Gs). lia.
    - rewrite (proj2 Gm). lia. }
  rewrite E in E0. cbn [bind] in E0.
  assert (length (firstn r (skipn (rows src * j) (flat (store src)))) = r) as Lx.
  { rewrite firstn_length, skipn_length, (len_store cat kind src Gs). lia. }
  assert (length (flat s') = rows m * cols m) as Ls.
  { rewrite F, splice_len; rewrite ?(len_store cat kind m Gm); auto. lia. }
  assert (mgood (with_store m s')) as GM.
  { split; [apply R, Gm|]. cbn [with_store store rows cols]. now rewrite <- (len_flat cat s' G'). }
  destruct o as [[qs qd]|]; [|injection E0 as <-; exact C'].
  apply (IH (S j) (with_store m s') qs qd m'); auto; cbn [with_store store rows cols]; try lia.
  intros q Hq. rewrite Nat.mul_succ_r in Hq. rewrite <- (len_flat cat s' G'), Ls in Hq.
  rewrite F, type_at_splice; rewrite ?(len_store cat kind m Gm); auto; try lia.
  apply Ht. rewrite (proj2 Gm). lia.
Qed.

Lemma mcopy_canon (src m m' : mtx) t : mgood src -> mgood m ->
  plain (Nat.min (rows m) (rows src)) (Nat.min (cols m) (cols src)) src ->
  canon (store m) -> (forall q, q < cs (store m) -> type_at cat (flat (store m)) q = t) ->
  mcopy cat kind src m = Ok m' -> canon (store m').
Proof.
  intros Gs Gm P C Ht E. unfold mcopy in E. rewrite (mempty_eq cat kind src Gs), (mempty_eq cat kind m Gm) in E.
  destruct (Nat.eqb_spec (rows m * cols m) 0) as [Zm|Zm]; cbn [orb] in E; [now injection E as <-|].
  destruct (Nat.eqb_spec (rows src * cols src) 0) as [Zs|Zs]; [now injection E as <-|].
  assert (0 < rows m /\ 0 < cols m) as [? ?] by (split; apply Nat.neq_0_lt_0; intros X; apply Zm; rewrite X; lia).
  assert (0 < rows src /\ 0 < cols src) as [? ?] by (split; apply Nat.neq_0_lt_0; intros X; apply Zs; rewrite X; lia).
  destruct (mposition None 0 0 m) as [pd| |]; cbn [bind] in E; try discriminate.
  destruct (mposition None 0 0 src) as [ps| |]; cbn [bind] in E; try discriminate.
  eapply (copy_cols_canon src _ (Nat.min (cols m) (cols src)) t Gs P); [| | | | | | | | |exact E]; auto; try lia.
  intros q Hq. apply Ht. lia.
Qed.

Lemma splits_ctype (m m' : mtx) p vs : (forall q, p <= q -> ctype m' q = ctype m q) ->
  splits m' p vs -> splits m p vs.
Proof.
  intros H. destruct vs as [|v r]; [auto|]. cbn [splits]. rewrite !H by lia. auto.
Qed.

Lemma copy_vals_canon r : 0 < r -> forall k j vs p (m m' : mtx), one_type cat vs -> length vs = r * k ->
  mgood m -> r <= rows m -> j + k <= cols m -> canon (store m) ->
  (forall t, t < k -> ~ splits m (rows m * (j + t)) (firstn r (skipn (r * t) vs))) ->
  copy_vals cat (seq j k) r vs p m = Ok m' -> canon (store m').
Proof.
  intros Hr k. induction k as [|k IH]; intros j vs p m m' Ho Hl Gm Hrm Hj Cm Hs E.
  { cbn [seq copy_vals] in E. now injection E as <-. }
  cbn [seq copy_vals] in E. apply bind_inv in E as (q & _ & E). apply bind_inv in E as ([s b] & E1 & E).
  unfold get_pos in E1. rewrite Nat.add_0_r in E1.
  assert (one_type cat (firstn r vs)) as Of by (apply (sub_one cat kind vs); auto; intros v; apply first_in).
  assert (rows m * j + rows m <= rows m * cols m) as L1 by nia.
  assert (length (firstn r vs) = r) as Lf by (rewrite firstn_length; nia).
  assert (canon s) as Cs.
  { eapply (canon_range_m m s); [exact Gm|exact Cm|exact Of| |exact E1].
    specialize (Hs 0 ltac:(lia)). rewrite Nat.add_0_r, Nat.mul_0_r in Hs. exact Hs. }
  assert (mgood (with_store m s)) as GM.
  { refine (proj1 (mkeep_store cat kind m s _ Gm)). eapply keep_set_range; eauto. }
  assert (forall q, rows m * S j <= q -> ctype (with_store m s) q = ctype m q) as Hq.
  { intros q' Hq'. rewrite !ctype_eq by (auto; cbn [with_store rows]; lia). cbn [with_store store].
    destruct (store_inv cat kind (OSetRange (Some (Some (fst q))) (rows m * j) (firstn r vs)) (store m) s
                (mgood_good cat kind m Gm) Of) as (l' & Es & _ & Fs & _).
    { cbn [exec]. apply (drop_eq cat kind _ _ b E1). }
    cbn [spec] in Es. destruct (firstn r vs) as [|v0 w] eqn:Ef; [cbn in Lf; lia|]. rewrite Lf in Es.
    destruct (_ <=? _) eqn:Eb in Es; [|discriminate]. apply Nat.leb_le in Eb.
    assert (l' = splice (rows m * j) r (map Some (v0 :: w)) (flat (store m))) as ->.
    { unfold splice, replace_range in *. congruence. }
    rewrite Fs, type_at_splice; auto; [now rewrite map_length|]. rewrite Nat.mul_succ_r in Hq'. lia. }
  eapply (IH (S j) (skipn r vs) _ (with_store m s)); [| | | | | | |exact E]; auto.
  - apply (sub_one cat kind vs); auto. intros v. apply skip_in.
  - rewrite skipn_length. nia.
  - cbn [with_store cols]. lia.
  - intros t Ht X. cbn [with_store rows] in X. apply (Hs (S t) ltac:(lia)).
    rewrite (skipn_add cat kind) in X. replace (r * S t) with (r + r * t) by nia.
    replace (j + S t) with (S j + t) by lia.
    apply (splits_ctype m (with_store m s)); [|exact X].
    intros q' Hq'. apply Hq. nia.
Qed.

Lemma flat_mk (g r c q : nat) : type_at cat (flat (store (mk g r c : mtx))) q = None.
Proof.
  cbn [mk store]. unfold mk_size. destruct (Nat.eqb_spec (r * c) 0) as [_|_].
  - unfold type_at, flat. cbn. destruct q; reflexivity.
  - unfold type_at, flat. cbn. rewrite app_nil_r. destruct (nth_error _ q) as [[v|]|] eqn:X; auto.
    apply nth_error_In, repeat_spec in X. discriminate.
Qed.

Lemma flat_fill g n v : flat (mk_fill cat g n v) = repeat (Some v) n.
Proof.
  unfold mk_fill. destruct (Nat.eqb_spec n 0) as [->|Hn]; [reflexivity|].
  unfold flat. cbn. rewrite app_nil_r. clear Hn. induction n as [|n IH]; cbn; [reflexivity|]. now rewrite IH.
Qed.

Lemma tidy_good m : tidy m -> mreach m /\ canon (store m).
Proof.
  assert (forall m, mreach m -> mgood m) as RG by (intros; now apply (mreach_good cat kind)).
  assert (forall g r c, canon (store (mk g r c : mtx))) as Cmk by (intros; apply canon_init).
  assert (forall m (o : mop) m', mreach m -> renews o -> tame m o -> mexec cat kind o m = Ok m' ->
            mreach m' /\ canon (store m')) as Hnew.
  { intros m0 o m' H R T E. split.
    { eapply m_step; eauto. destruct o; try contradiction; exact I. }
    destruct o; try contradiction; cbn [mexec tame] in *.
    - unfold transpose in E. apply bind_inv in E as (t & E1 & E). rewrite (swap_second cat kind) in E. injection E as <-.
      set (Q := fun a b : mtx => mgood a /\ canon (store a) -> mgood b /\ canon (store b)).
      assert (Q (mk g (cols m0) (rows m0)) t) as HQ.
      { revert E1. apply (for_each_keep Q).
        - intros b X; exact X.
        - intros a b c X Y Z. auto.
        - intros i b b'. apply (for_each_keep Q).
          + intros x X; exact X.
          + intros x y z X Y Z. auto.
          + intros j x y Ec [Gx Cx]. split; [now apply (transpose_cell_keep cat kind m0 i j x y Ec)|].
            unfold transpose_cell in Ec. apply bind_inv in Ec as (kk & _ & Ec).
            destruct kk as [[]|]; try discriminate.
            4: injection Ec as <-; exact Cx.
            all: apply bind_inv in Ec as (w & _ & Ec); apply bind_inv in Ec as (v & _ & Ec).
            all: unfold mset, on_store in Ec; apply bind_inv in Ec as ([s b2] & Ec & E2); injection E2 as <-.
            all: cbn [with_store store]; eapply (canon_set (store x)); [now apply (mgood_good cat kind)|exact Cx|now left|exact Ec]. }
      apply HQ. split; [apply (mgood_mk cat kind)|apply Cmk].
    - unfold mresize in E. destruct (_ || _) in E.
      + unfold mclear in E. apply bind_inv in E as (s & E & E2). injection E2 as <-. cbn [store].
        unfold clear in E. apply bind_inv in E as (s1 & _ & E). injection E as <-. exact I.
      + apply bind_inv in E as (t & E1 & E). rewrite (swap_second cat kind) in E. injection E as <-.
        eapply (mcopy_canon m0 (mk g r c) t None); [| | | | |exact E1]; auto.
        * apply (mgood_mk cat kind). * intros q _. apply flat_mk.
    - unfold mresize_val in E. destruct (_ || _) in E.
      + unfold mclear in E. apply bind_inv in E as (s & E & E2). injection E2 as <-. cbn [store].
        unfold clear in E. apply bind_inv in E as (s1 & _ & E). injection E as <-. exact I.
      + apply bind_inv in E as (t & E1 & E). rewrite (swap_second cat kind) in E. injection E as <-.
        eapply (mcopy_canon m0 (mk_val cat g r c v) t (Some (cat v))); [| | | | |exact E1]; auto.
        * apply (mgood_mk_val cat kind). * apply (good_fill cat).
        * intros q Hq. cbn [mk_val store] in Hq |- *. rewrite (cs_fill cat kind) in Hq.
          rewrite flat_fill. unfold type_at. rewrite nth_error_repeat by exact Hq. reflexivity.
    - unfold mclear in E. apply bind_inv in E as (s & E & E2). injection E2 as <-. cbn [store].
      unfold clear in E. apply bind_inv in E as (s1 & _ & E). injection E as <-. exact I. }
  induction 1 as [g|g r c|g r c v|g r c vs m Ho E|g m m' H [IH1 IH2] E|g m other m' H H2 [IH1 IH2] E
    |m o m' H [IH1 IH2] L T E|m o m' H R T E
    |src m t m' H H2 [IH1 IH2] P T E].
  - split; [apply m_default|]. exact I.
  - split; [apply m_dims|apply Cmk].
  - split; [apply m_val|]. apply (good_fill cat).
  - split; [eapply m_vals; eauto|]. unfold mk_vals in E. apply bind_inv in E as (s & E1 & E).
    assert (canon s) as C by (eapply (good_range cat); eauto).
    destruct (_ =? 0) in E; [now injection E as <-|].
    apply bind_inv in E as (d & _ & E). apply bind_inv in E as (k & _ & E). now injection E as <-.
  - split; [eapply m_copy; eauto|]. unfold mk_copy in E. apply bind_inv in E as (s & E1 & E). injection E as <-.
    cbn [store].
    destruct (copy_spec cat (fun v => v) (fun _ => true) (fun v => eq_refl) g _ _ (mgood_good cat kind m (RG m IH1)) E1) as (_ & X & _).
    now apply X.
  - split; [exact (m_assign _ _ g m other m' H IH1 E)|]. unfold massign, assign in E.
    apply bind_inv in E as (s & E1 & E). injection E as <-. apply bind_inv in E1 as (t & E1 & E2). injection E2 as <-.
    cbn [store]. assert (fst (swap_all (store m) t) = t) as -> by (destruct t, (store m); reflexivity).
    destruct (copy_spec cat (fun v => v) (fun _ => true) (fun v => eq_refl) g _ _ (mgood_good cat kind other (RG other IH1)) E1) as (_ & X & _).
    now apply X.
  - pose proof (RG m IH1) as G. pose proof (mgood_good cat kind m G) as Gs.
    assert (renews o \/ ~ renews o) as [Rn|Rn] by (destruct o; cbn; auto).
    { now apply (Hnew m o m'). }
    split; [eapply m_step; eauto|].
    destruct o; cbn [mexec mlegal tame renews] in *; try (exfalso; now apply Rn).
    + unfold mset, on_store in E. apply bind_inv in E as ([s b] & E & E2). injection E2 as <-. cbn [with_store store].
      eapply canon_set; [| | |exact E]; auto.
    + apply bind_inv in E as (p & _ & E). apply (drop_inv cat kind) in E as (p' & E). unfold mset_at in E.
      apply bind_inv in E as (q & Eq & E). apply bind_inv in E as ([s b] & E1 & E).
      apply bind_inv in E as (z & _ & E). destruct (_ <=? _) in E; [|discriminate]. injection E as <- <-.
      unfold get_pos_at in Eq. apply bind_inv in Eq as (q0 & Eq & _). cbn [with_store store].
      eapply canon_set; [| | |exact E1]; auto. right. eapply (pos_at_ne cat kind); eauto.
    + unfold mset_empty, on_store in E. apply bind_inv in E as ([s b] & E & E2). injection E2 as <-. cbn [with_store store].
      eapply canon_set_empty; [| | |exact E]; auto.
    + unfold mset_empty_len in E. destruct (_ =? _) in E; [discriminate|].
      unfold on_store in E. apply bind_inv in E as ([s b] & E & E2). injection E2 as <-. cbn [with_store store].
      eapply canon_set_empty; [| | |exact E]; auto.
    + apply bind_inv in E as (p & _ & E). apply (drop_inv cat kind) in E as (p' & E). unfold mset_empty_at in E.
      apply bind_inv in E as (q & Eq & E). apply bind_inv in E as ([s b] & E1 & E).
      apply bind_inv in E as (z & _ & E). destruct (_ <=? _) in E; [|discriminate]. injection E as <- <-.
      unfold get_pos_at in Eq. apply bind_inv in Eq as (q0 & Eq & _). cbn [with_store store].
      eapply canon_set_empty; [| | |exact E1]; auto. right. eapply (pos_at_ne cat kind); eauto.
    + unfold mset_column_empty in E. destruct (rows m); [discriminate|].
      unfold on_store in E. apply bind_inv in E as ([s b] & E & E2). injection E2 as <-. cbn [with_store store].
      eapply canon_set_empty; [| | |exact E]; auto.
    + unfold mset_row_empty in E.
      set (Q := fun a b : mtx => mgood a /\ canon (store a) -> mgood b /\ canon (store b)).
      assert (Q m m') as HQ; [|now apply HQ].
      revert E. apply (for_each_keep Q).
      * intros b X; exact X.
      * intros a b c X Y Z. auto.
      * intros j x y Ec [Gx Cx]. split; [now apply (mkeep_mset_empty cat kind x y i j Ec)|].
        unfold mset_empty, on_store in Ec. apply bind_inv in Ec as ([s b] & Ec & E2). injection E2 as <-. cbn [with_store store].
        eapply canon_set_empty; [| | |exact Ec]; auto. now apply (mgood_good cat kind).
    + unfold mset_range, on_store in E. apply bind_inv in E as ([s b] & E & E2). injection E2 as <-. cbn [with_store store].
      eapply canon_range_m; eauto.
    + apply bind_inv in E as (p & Ep & E). apply (drop_inv cat kind) in E as (p' & E). unfold mset_range_at in E.
      apply bind_inv in E as (q & Eq & E). apply bind_inv in E as ([s b] & E1 & E).
      apply bind_inv in E as (z & _ & E). destruct (_ <=? _) in E; [|discriminate]. injection E as <- <-.
      cbn [with_store store].
      assert (q = rows m * j + i) as ->; [|eapply canon_range_m; eauto].
      unfold mposition, get_pos in Ep. set (pos := rows m * j + i) in *.
      destruct (Nat.lt_ge_cases pos (cs (store m))) as [Lp|Lp].
      * destruct (spot_at cat kind (store m) None pos Gs Lp) as (bi & bk & bz & bd & Eb & Sb).
        rewrite Eb in Ep. injection Ep as <-.
        pose proof (spot_logical cat kind _ _ _ _ _ _ Gs Sb) as EL.
        unfold logical_position in EL. unfold get_pos_at in Eq. cbn [fst snd] in *. congruence.
      * unfold position in Ep. destruct (Nat.eqb_spec pos (cs (store m))) as [Ee|Ee].
        -- injection Ep as <-. unfold get_pos_at, pos_at, bat in Eq. cbn [fst snd] in Eq.
           replace (nth_error (bl (store m)) (nblk (store m))) with (@None (@MtvModel.blk V)) in Eq; [discriminate|].
           symmetry. apply nth_error_None. unfold nblk. lia.
        -- rewrite (locate_none (store m) pos Lp) in Ep. discriminate.
    + unfold mset_column in E.
      assert (on_store m (set_range cat nm None (get_pos m 0 j) (firstn (rows m) vs) (store m)) = Ok m') as E'.
      { destruct (Nat.leb_spec (length vs) (rows m)); [|exact E]. now rewrite firstn_all2. }
      clear E. unfold on_store in E'. apply bind_inv in E' as ([s b] & E & E2). injection E2 as <-. cbn [with_store store].
      unfold get_pos in E. rewrite Nat.add_0_r in E.
      eapply canon_range_m; [exact G|exact IH2| |exact T|exact E].
      apply (sub_one cat kind vs); auto. intros v. apply first_in.
    + unfold mcopy_vals in E. rewrite (mempty_eq cat kind m G) in E.
      destruct (_ || _) eqn:E0 in E; [now injection E as <-|].
      apply orb_false_iff in E0 as [E0 E0']. apply Nat.eqb_neq in E0.
      destruct (Nat.eqb_spec (length vs) (r * c)) as [El|El]; cbn [negb] in E; [|discriminate].
      destruct (_ || _) eqn:E2 in E; [discriminate|]. apply orb_false_iff in E2 as [E2 E2'].
      apply Nat.ltb_ge in E2. apply Nat.ltb_ge in E2'.
      apply bind_inv in E as (v0 & _ & E). apply bind_inv in E as (k & _ & E). apply bind_inv in E as (p & _ & E).
      eapply (copy_vals_canon r); [nia|exact L|exact El|exact G|exact E2| |exact IH2| |exact E]; [lia|exact T].
  - now apply (Hnew m o m').
  - split; [exact (m_copy_from _ _ src m m' H IH1 E)|].
    pose proof (RG m IH1) as G. eapply (mcopy_canon src m m' t); auto.
    intros q Hq. rewrite (proj2 G) in Hq. rewrite <- (ctype_eq m q G); [now apply T|nia].
Qed.

(** ** C90: operator== *)

(** Missing for the full statement: matrices whose history has a range write as in
    finding M4 (see C90_equal_refuted), and copies of a matrix into one with cells of
    several types. *)
Theorem C90_equal_partial : forall (veq : V -> V -> bool) a b, (forall x y, veq x y = true <-> x = y) ->
  tidy a -> tidy b ->
  (meq veq a b = true <-> cells b (rows a) (cols a) (fun i j => mget i j a)).
Proof.
  intros veq a b Hv Ta Tb. destruct (tidy_good a Ta) as [Ra Ca], (tidy_good b Tb) as [Rb Cb].
  split; [now apply (C56_equal_sound cat kind veq a b Hv Ra Rb)|].
  intros (Er & Ec & Hc). pose proof (mreach_good cat kind a Ra) as Ga. pose proof (mreach_good cat kind b Rb) as Gb.
  unfold meq. rewrite Er, Ec, !Nat.eqb_refl. cbn [andb].
  apply (eq_mtv_spec cat veq Hv (store a) (store b) (mgood_good cat kind a Ga) (mgood_good cat kind b Gb) Ca Cb).
  pose proof (len_store cat kind a Ga) as La. pose proof (len_store cat kind b Gb) as Lb. rewrite Er, Ec in Lb.
  assert (forall p, nth_error (flat (store a)) p = nth_error (flat (store b)) p) as Hp.
  { intros p. destruct (Nat.lt_ge_cases p (rows a * cols a)) as [L|L].
    - assert (0 < rows a) as Z by nia.
      assert (p mod rows a < rows a) as L1 by (apply Nat.mod_upper_bound; lia).
      assert (p / rows a < cols a) as L2 by (apply Nat.div_lt_upper_bound; lia).
      specialize (Hc _ _ L1 L2). rewrite (mget_eq cat kind b _ _ Gb), (mget_eq cat kind a _ _ Ga), Er in Hc.
      rewrite <- (Nat.div_mod p (rows a)) in Hc by lia.
      destruct (nth_error (flat (store a)) p) as [x|] eqn:E1; [|apply nth_error_None in E1; lia].
      destruct (nth_error (flat (store b)) p) as [y|] eqn:E2; [|apply nth_error_None in E2; lia].
      congruence.
    - rewrite !(proj2 (nth_error_None _ _)) by lia. reflexivity. }
  revert Hp. generalize (flat (store b)). induction (flat (store a)) as [|x l IH] in |- *; intros [|y l'] Hp; auto.
  - discriminate (Hp 0). - discriminate (Hp 0).
  - f_equal; [injection (Hp 0); auto|]. apply IH. intros p. exact (Hp (S p)).
Qed.

End P.

(** ** Concrete cases *)

(** Five rows and one column, written so that the last range write starts on a number,
    ends on a string and is followed by a number; and the same cells written at once. *)
Definition y1 := run1 (MSetRange 0 0 [(0, 10); (0, 11)]) (mk 0 5 1).
Definition y2 := run1 (MSet 2 0 (2, 20)) y1.
Definition y3 := run1 (MSetRange 3 0 [(0, 12); (0, 13)]) y2.
Definition y4 := run1 (MSetRange 0 0 [(0, 7); (0, 8); (0, 9)]) y3.
Definition y5 : @mtx xv :=
  match mk_vals xcat xkind 1 5 1 [(0, 7); (0, 8); (0, 9); (0, 12); (0, 13)] with Ok m => m | _ => xi end.
Definition eqv (a b : xv) : bool := (fst a =? fst b) && (snd a =? snd b).
Lemma eqv_ok x y : eqv x y = true <-> x = y.
Proof.
  unfold eqv. destruct x, y. cbn. rewrite andb_true_iff, !Nat.eqb_eq. split; [intros []; congruence|].
  intros E. injection E. auto.
Qed.
Ltac same_type := intros x y Hx Hy; cbn in Hx, Hy; intuition subst; reflexivity.

Lemma y3_tidy : tidy xcat xkind y3.
Proof.
  apply (t_step _ _ y2 (MSetRange 3 0 [(0, 12); (0, 13)])); [|same_type| |vm_compute; reflexivity].
  - apply (t_step _ _ y1 (MSet 2 0 (2, 20))); [|exact I|exact I|vm_compute; reflexivity].
    apply (t_step _ _ (mk 0 5 1) (MSetRange 0 0 [(0, 10); (0, 11)])); [apply t_dims|same_type| |vm_compute; reflexivity].
    intros (X & _). vm_compute in X. discriminate.
  - intros (X & _). vm_compute in X. discriminate.
Qed.
Lemma y5_tidy : tidy xcat xkind y5.
Proof. apply (t_vals _ _ 1 5 1 [(0, 7); (0, 8); (0, 9); (0, 12); (0, 13)]); [same_type|vm_compute; reflexivity]. Qed.
Lemma y4_reach : mreach xcat xkind y4.
Proof.
  apply (m_step _ _ y3 (MSetRange 0 0 [(0, 7); (0, 8); (0, 9)])); [|same_type|vm_compute; reflexivity].
  exact (proj1 (tidy_good xcat xkind y3 y3_tidy)).
Qed.
Lemma y4_cells : cells y5 (rows y4) (cols y4) (fun i j => mget i j y4).
Proof.
  split; [vm_compute; reflexivity|]. split; [vm_compute; reflexivity|]. intros i j Hi Hj.
  assert (i < 5) as Hi' by exact Hi. assert (j < 1) as Hj' by exact Hj. assert (j = 0) as -> by lia.
  destruct i as [|[|[|[|[|]]]]]; [..|lia]; vm_compute; reflexivity.
Qed.

(** Finding M4 at the matrix: equal dimensions and equal cells, and yet unequal. *)
Theorem C90_equal_refuted : exists a b, mreach xcat xkind a /\ mreach xcat xkind b /\
  cells b (rows a) (cols a) (fun i j => mget i j a) /\ meq eqv a b = false.
Proof.
  exists y4, y5. split; [exact y4_reach|]. split; [exact (proj1 (tidy_good xcat xkind y5 y5_tidy))|].
  split; [exact y4_cells|vm_compute; reflexivity].
Qed.

(** The condition of C90_equal_partial fails for exactly this last write, and a resize
    to the same dimensions makes the two compare equal again. *)
Definition y6 : @mtx xv := run1 (MResize 2 5 1) y4.
Lemma y6_tidy : tidy xcat xkind y6.
Proof.
  apply (t_renew _ _ y4 (MResize 2 5 1)); [exact y4_reach|exact I| |vm_compute; reflexivity].
  intros i j v Hi Hj E. assert (i < 5) as Hi' by exact Hi. assert (j < 1) as Hj' by exact Hj.
  assert (j = 0) as -> by lia.
  destruct i as [|[|[|[|[|]]]]]; [..|lia]; vm_compute in E; injection E as <-; vm_compute; split; discriminate.
Qed.
Example C90_case : tidy xcat xkind y3 /\ tidy xcat xkind y5 /\ tidy xcat xkind y6 /\
  meq eqv y3 y5 = false /\ meq eqv y6 y5 = true /\ meq eqv y4 y5 = false /\
  splits xcat y3 0 [(0, 7); (0, 8); (0, 9)] /\ (forall x y, eqv x y = true <-> x = y).
Proof.
  split; [exact y3_tidy|]. split; [exact y5_tidy|]. split; [exact y6_tidy|].
  split; [vm_compute; reflexivity|]. split; [vm_compute; reflexivity|]. split; [vm_compute; reflexivity|].
  split; [|exact eqv_ok]. split; [vm_compute; reflexivity|]. split; [|vm_compute; reflexivity].
  vm_compute. discriminate.
Qed.

(** One query for all the theorems of this file. *)
Definition MtxProps3_theorems := (@C90_equal_partial, @C90_equal_refuted).
Print Assumptions MtxProps3_theorems.
