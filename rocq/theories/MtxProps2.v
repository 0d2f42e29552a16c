(** Further theorems about multi_type_matrix (C56): copy and resize throw exactly when
    an integer would be copied. *)
From Coq Require Import List ZArith Lia Bool.
From Verif Require Import Base MtvModel MtvModel2 MtvSpec MtvProofs MtvWrap MtvBridge MtvBridge2 MtvProps
  MtxModel MtxSpec MtxProofs MtxProofs2 MtxProofs3 MtxProofs4 MtxProofs5 MtxProps.
Import ListNotations.

Section P.
Set Default Proof Using "All".
Context {V : Type}.
Variable cat : V -> nat.
Variable kind : nat -> option mty.
Notation st := (@MtvModel.st V).
Notation mtx := (@MtxModel.mtx V).
Notation mreach := (mreach cat kind).
Notation mgood := (mgood cat).
Notation good := (good cat).
Notation plain := (plain cat kind).
Notation rch := (@reach V cat nm (fun v => v) (fun _ => true) anyop).

(** ** Specification *)

(** The cell is an integer. *)
Definition is_int (x : option V) : bool :=
  match x with
  | Some v => match kind (cat v) with Some KInt => true | _ => false end
  | None => false
  end.

(** Every cell of the first [r] rows and [c] columns has a supported type. *)
Definition supported_in_area (r c : nat) (m : mtx) : Prop :=
  forall i j v, i < r -> j < c -> mget i j m = Ok (Some v) -> kind (cat v) <> None.

(** ** Proofs *)

Lemma copy_rows_throw src : good src -> forall fuel dst p i k z d lp pi pk pz pd rem,
  spot src p i k z d -> good dst -> spot dst lp pi pk pz pd -> 0 < rem -> rem < fuel ->
  p + rem <= cs src -> lp + rem <= cs dst ->
  (forall v, In (Some v) (firstn rem (skipn p (flat src))) -> kind (cat v) <> None) ->
  existsb is_int (firstn rem (skipn p (flat src))) = true ->
  copy_rows cat kind fuel src (i, k) (pi, pk) rem dst = Throw E_general.
Proof.
  intros G fuel. induction fuel as [|fuel IH]; intros dst p i k z d lp pi pk pz pd rem Sp Gd Sd Hr Hf Hp Hlp Hk Hi; [lia|].
  cbn [copy_rows]. destruct (spot_left cat kind _ _ _ _ _ _ Sp) as [El Lk]. rewrite El. cbn [bind].
  set (sec := Nat.min (z - k) rem).
  destruct (spot_node cat kind src p i k z d sec G Sp) as (nd & E & En & Ok1 & C & T).
  { lia. } { intros v Hv. apply Hk. eapply in_firstn_le; [exact cat|exact kind| |exact Hv]. lia. }
  rewrite E. cbn [bind]. rewrite (spot_logical cat kind dst lp _ _ _ _ Gd Sd). cbn [bind].
  destruct (existsb is_int (firstn sec (skipn p (flat src)))) eqn:Ei.
  - (* this block is one of integers *)
    apply existsb_exists in Ei as (x & Hx & Ix). destruct Ok1 as (_ & _ & Ho).
    rewrite <- C in Hx. specialize (Ho x Hx).
    destruct x as [v|]; [|discriminate]. cbn [is_int kind_of] in *.
    destruct (kind (cat v)) as [[]|]; try discriminate. cbn [option_map] in Ho. injection Ho as Ho.
    rewrite <- Ho. reflexivity.
  - (* this block is copied *)
    destruct (copy_rows_spec cat kind src G (S sec) dst p i k z d lp pi pk pz pd sec Sp Gd Sd) as (d1 & o & E1 & G1 & F1 & R1 & O1);
      try lia.
    { intros v Hv. split.
      - apply Hk. eapply in_firstn_le; [exact cat|exact kind| |exact Hv]. lia.
      - intros K. assert (existsb is_int (firstn sec (skipn p (flat src))) = true); [|congruence].
        apply existsb_exists. exists (Some v). split; [exact Hv|]. cbn [is_int]. now rewrite K. }
    cbn [copy_rows] in E1. rewrite El in E1. cbn [bind] in E1.
    replace (Nat.min (z - k) sec) with sec in E1 by lia.
    rewrite E in E1. cbn [bind] in E1. rewrite (spot_logical cat kind dst lp _ _ _ _ Gd Sd) in E1. cbn [bind] in E1.
    match type of E1 with bind ?X _ = _ => destruct X as [[d2 b]| |] end; cbn [bind] in E1 |- *; try discriminate.
    assert (d2 = d1) as ->.
    { destruct (size d2 <=? lp + sec); [congruence|].
      destruct (position _ _ d2) as [q| |]; cbn [bind] in E1; try discriminate.
      rewrite Nat.sub_diag in E1. cbn [Nat.eqb] in E1. congruence. }
    clear E1.
    assert (length (firstn sec (skipn p (flat src))) = sec) as Lsec.
    { rewrite firstn_length, skipn_length, (len_flat cat src G). lia. }
    assert (size d1 = cs dst) as Hs1.
    { unfold size. rewrite <- (len_flat cat d1 G1), F1, splice_len; rewrite ?(len_flat cat dst Gd); auto. lia. }
    assert (sec < rem) as Hlt.
    { destruct (Nat.eq_dec sec rem) as [Q|Q]; [|lia]. rewrite Q in Ei. congruence. }
    rewrite Hs1. destruct (Nat.leb_spec (cs dst) (lp + sec)) as [L|L]; [lia|].
    destruct (spot_at cat kind d1 (Some (Some b)) (lp + sec) G1) as (qi & qk & qz & qd & Eq & Sq).
    { unfold size in Hs1. lia. }
    rewrite Eq. cbn [bind fst].
    destruct (Nat.eqb_spec (rem - sec) 0) as [Z|Z]; [lia|].
    assert (sec = z - k) as Es by lia.
    destruct (spot_next cat kind src p i k z d G Sp ltac:(lia)) as (z' & d' & Sp'). rewrite <- Es in Sp'.
    assert (firstn rem (skipn p (flat src)) =
            firstn sec (skipn p (flat src)) ++ firstn (rem - sec) (skipn (p + sec) (flat src))) as Sx.
    { replace rem with (sec + (rem - sec)) at 1 by lia. rewrite (firstn_add cat kind). now rewrite (skipn_add cat kind). }
    eapply (IH d1); eauto; try lia.
    + unfold size in Hs1. lia.
    + intros v Hv. apply Hk. rewrite Sx. apply in_or_app. now right.
    + rewrite Sx, existsb_app, Ei in Hi. exact Hi.
Qed.

Lemma copy_cols_throw (src : mtx) r c i0 j0 v0 : mgood src -> supported_in_area r c src -> 0 < r -> r <= rows src -> c <= cols src ->
  i0 < r -> mget i0 j0 src = Ok (Some v0) -> kind (cat v0) = Some KInt ->
  forall k j m ps pd, mgood m -> r <= rows m -> c <= cols m -> j + k <= c -> j <= j0 < j + k ->
  copy_cols cat kind (seq j k) r m src ps pd = Throw E_general.
Proof.
  intros Gs Ss' Hr Hrs Hcs Hi0 Ev Kv k. induction k as [|k IH]; intros j m ps pd Gm Hrm Hcm Hj Hj0; [lia|].
  cbn [seq copy_cols].
  destruct (mpos_spot cat kind m (Some (fst pd)) 0 j Gm ltac:(lia) ltac:(lia)) as (di & dk & dz & dd & Ed & Sd).
  destruct (mpos_spot cat kind src (Some (fst ps)) 0 j Gs ltac:(lia) ltac:(lia)) as (si & sk & sz & sd & Es & Ss).
  rewrite Ed, Es. cbn [bind].
  assert (rows m * j + rows m <= rows m * cols m) as L1 by nia.
  assert (rows src * j + rows src <= rows src * cols src) as L2 by nia.
  rewrite Nat.add_0_r in Sd, Ss.
  pose proof (column_cells cat kind src 0 r j Gs ltac:(lia) ltac:(lia)) as CC. rewrite Nat.add_0_r in CC.
  assert (forall v, In (Some v) (firstn r (skipn (rows src * j) (flat (store src)))) -> kind (cat v) <> None) as Hk.
  { intros v Hv. apply (in_map Ok) in Hv. rewrite CC in Hv. apply in_map_iff in Hv as (a & Ea & Ha).
    apply in_seq in Ha. apply (Ss' a j v); auto; lia. }
  destruct (existsb is_int (firstn r (skipn (rows src * j) (flat (store src))))) eqn:Ei.
  - rewrite (copy_rows_throw (store src) (mgood_good cat kind src Gs) (S r) (store m) _ _ _ _ _ _ _ _ _ _ r
              Ss (mgood_good cat kind m Gm) Sd ltac:(lia) ltac:(lia)); auto; [rewrite (proj2 Gs)|rewrite (proj2 Gm)]; lia.
  - assert (j <> j0) as Hne.
    { intros ->. assert (existsb is_int (firstn r (skipn (rows src * j0) (flat (store src)))) = true); [|congruence].
      apply existsb_exists. exists (Some v0). split; [|cbn [is_int]; now rewrite Kv].
      assert (In (Ok (Some v0)) (map Ok (firstn r (skipn (rows src * j0) (flat (store src)))))) as Hin.
      { rewrite CC. apply in_map_iff. exists i0. split; [exact Ev|]. apply in_seq. lia. }
      apply in_map_iff in Hin as (y & Ey & Hy). injection Ey as ->. exact Hy. }
    destruct (copy_rows_spec cat kind (store src) (mgood_good cat kind src Gs) (S r) (store m) _ _ _ _ _ _ _ _ _ _ r
                Ss (mgood_good cat kind m Gm) Sd ltac:(lia) ltac:(lia)) as (s' & o & E & G' & F & R & O).
    { rewrite (proj2 Gs). lia. } { rewrite (proj2 Gm). lia. }
    { intros v Hv. split; [now apply Hk|]. intros K.
      assert (existsb is_int (firstn r (skipn (rows src * j) (flat (store src)))) = true); [|congruence].
      apply existsb_exists. exists (Some v). split; [exact Hv|]. cbn [is_int]. now rewrite K. }
    rewrite E. cbn [bind].
    assert (mgood (with_store m s')) as GM.
    { assert (length (firstn r (skipn (rows src * j) (flat (store src)))) = r) as Lx.
      { rewrite firstn_length, skipn_length, (len_store cat kind src Gs). lia. }
      split; [apply R, Gm|]. cbn [with_store store rows cols].
      rewrite <- (len_flat cat s' G'), F, splice_len; rewrite ?(len_store cat kind m Gm); auto. lia. }
    destruct o as [[qs qd]|].
    + apply IH; auto; cbn [with_store cols rows]; lia.
    + specialize (O eq_refl). rewrite (proj2 Gm) in O.
      assert (rows m * (j + 1) >= rows m * cols m) by lia. assert (cols m <= j + 1) by nia. lia.
Qed.

(** ** C56: theorems *)

(** copy(src) throws when an integer lies in the common area, wherever it lies.
    resize keeps the matrix then: the new one is a temporary. *)
Theorem C56_copy_throws : forall src m i j v, mreach src -> mreach m ->
  supported_in_area (Nat.min (rows m) (rows src)) (Nat.min (cols m) (cols src)) src ->
  i < Nat.min (rows m) (rows src) -> j < Nat.min (cols m) (cols src) ->
  mget i j src = Ok (Some v) -> kind (cat v) = Some KInt ->
  mcopy cat kind src m = Throw E_general.
Proof.
  intros src m i j v Hs Hm S Hi Hj Ev Kv.
  pose proof (mreach_good cat kind _ Hs) as Gs. pose proof (mreach_good cat kind _ Hm) as Gm.
  unfold mcopy. rewrite (mempty_eq cat kind src Gs), (mempty_eq cat kind m Gm).
  destruct (Nat.eqb_spec (rows m * cols m) 0) as [Z|_]; [apply Nat.eq_mul_0 in Z; lia|].
  destruct (Nat.eqb_spec (rows src * cols src) 0) as [Z|_]; [apply Nat.eq_mul_0 in Z; lia|]. cbn [orb].
  destruct (mpos_spot cat kind m None 0 0 Gm ltac:(lia) ltac:(lia)) as (di & dk & dz & dd & Ed & Sd).
  destruct (mpos_spot cat kind src None 0 0 Gs ltac:(lia) ltac:(lia)) as (si & sk & sz & sd & Es & Ss).
  rewrite Ed, Es. cbn [bind].
  apply (copy_cols_throw src _ (Nat.min (cols m) (cols src)) i j v); auto; lia.
Qed.

Theorem C56_resize_throws : forall g r c m i j v, mreach m ->
  supported_in_area (Nat.min r (rows m)) (Nat.min c (cols m)) m ->
  i < Nat.min r (rows m) -> j < Nat.min c (cols m) ->
  mget i j m = Ok (Some v) -> kind (cat v) = Some KInt ->
  mresize cat kind g r c m = Throw E_general /\ forall w, mresize_val cat kind g r c w m = Throw E_general.
Proof.
  intros g r c m i j v H S Hi Hj Ev Kv. split; [|intros w].
  - unfold mresize. rewrite (nonzero_dim cat kind r c) by lia.
    rewrite (C56_copy_throws m (mk g r c) i j v); auto. apply m_dims.
  - unfold mresize_val. rewrite (nonzero_dim cat kind r c) by lia.
    rewrite (C56_copy_throws m (mk_val cat g r c w) i j v); auto. apply m_val.
Qed.

(** copy(src) succeeds exactly when no integer lies in the common area; resize
    likewise. *)
Theorem C56_copy_exact : forall src m, mreach src -> mreach m ->
  supported_in_area (Nat.min (rows m) (rows src)) (Nat.min (cols m) (cols src)) src ->
  (exists m', mcopy cat kind src m = Ok m') <->
  (forall i j v, i < Nat.min (rows m) (rows src) -> j < Nat.min (cols m) (cols src) ->
     mget i j src = Ok (Some v) -> kind (cat v) <> Some KInt).
Proof.
  intros src m Hs Hm S. split.
  - intros (m' & E) i j v Hi Hj Ev Kv. rewrite (C56_copy_throws src m i j v) in E; auto. discriminate.
  - intros N. destruct (C56_copy_partial cat kind src m Hs Hm) as (m' & E & _); [|eauto].
    intros i j v Hi Hj Ev. split; [now apply (S i j v)|now apply (N i j v)].
Qed.

Theorem C56_resize_exact : forall g r c m, mreach m -> 0 < r -> 0 < c ->
  supported_in_area (Nat.min r (rows m)) (Nat.min c (cols m)) m ->
  (exists m', mresize cat kind g r c m = Ok m') <->
  (forall i j v, i < Nat.min r (rows m) -> j < Nat.min c (cols m) ->
     mget i j m = Ok (Some v) -> kind (cat v) <> Some KInt).
Proof.
  intros g r c m H Hr Hc S. split.
  - intros (m' & E) i j v Hi Hj Ev Kv.
    destruct (C56_resize_throws g r c m i j v H S Hi Hj Ev Kv) as [X _]. rewrite X in E. discriminate.
  - intros N. destruct (C56_resize_partial cat kind g r c m H Hr Hc) as (m' & E & _); [|eauto].
    intros i j v Hi Hj Ev. split; [now apply (S i j v)|now apply (N i j v)].
Qed.

(** The same for transpose. *)
Theorem C55_exact : forall g m, mreach m -> supported cat kind m ->
  (exists m', transpose cat kind g m = Ok m') <->
  (forall i j v, i < rows m -> j < cols m -> mget i j m = Ok (Some v) -> kind (cat v) <> Some KInt).
Proof.
  intros g m H S. split.
  - intros (m' & E) i j v Hi Hj Ev Kv. rewrite (C55_integer_throws cat kind g m i j v) in E; auto. discriminate.
  - intros N. destruct (C55_transpose_partial cat kind g m H) as (m' & E & _); [|eauto].
    intros i j v Hi Hj Ev. split; [now apply (S i j v)|now apply (N i j v)].
Qed.
End P.

(** ** Concrete cases *)

(** A 2 x 3 matrix with an integer at (1, 2) only: shrinking it to 2 x 2 works,
    keeping the third column does not. *)
Definition x6 : @mtx xv := match mset xcat 1 2 (3, 9) (mk_val xcat 0 2 3 (0, 5)) with Ok m => m | _ => xi end.
Lemma x6_reach : mreach xcat xkind x6.
Proof. apply (m_step _ _ (mk_val xcat 0 2 3 (0, 5)) (MSet 1 2 (3, 9))); [apply m_val|exact I|vm_compute; reflexivity]. Qed.
Lemma x6_supported : supported xcat xkind x6.
Proof.
  intros i j v Hi Hj E. change (rows x6) with 2 in Hi; change (cols x6) with 3 in Hj.
  destruct i as [|[|]]; [| |lia]; (destruct j as [|[|[|]]]; [| | |lia]); vm_compute in E; injection E as <-; vm_compute; discriminate.
Qed.
Example C56_exact_case :
  mreach xcat xkind x6 /\ supported xcat xkind x6 /\ supported_in_area xcat xkind (Nat.min 2 (rows x6)) (Nat.min 3 (cols x6)) x6 /\
  mget 1 2 x6 = Ok (Some (3, 9)) /\ xkind (xcat (3, 9)) = Some KInt /\
  (exists m', mresize xcat xkind 7 2 2 x6 = Ok m') /\ (exists m', mresize xcat xkind 7 1 3 x6 = Ok m') /\
  mresize xcat xkind 7 2 3 x6 = Throw E_general /\ mcopy xcat xkind x6 (mk 7 4 4) = Throw E_general /\
  transpose xcat xkind 7 x6 = Throw E_general.
Proof.
  split; [exact x6_reach|]. split; [exact x6_supported|].
  split; [exact x6_supported|].
  split; [vm_compute; reflexivity|]. split; [vm_compute; reflexivity|].
  split; [eexists; vm_compute; reflexivity|]. split; [eexists; vm_compute; reflexivity|].
  split; [vm_compute; reflexivity|]. split; vm_compute; reflexivity.
Qed.

(** One query for all the theorems of this file. *)
Definition MtxProps2_theorems :=
  (@C56_copy_throws, @C56_resize_throws, @C56_copy_exact, @C56_resize_exact, @C55_exact).
Print Assumptions MtxProps2_theorems.
