(** Properties of the iterators of multi_type_vector's collection (C89).

    The specification is that of CollProps.v ([visits], [fits], [in_force]) and
    [steps]: k applications of ++. *)
From Coq Require Import List ZArith NArith Lia Bool.
From Verif Require Import Base MtvModel MtvModel2 MtvSpec MtvProofs MtvBridge MtvBridge2 MtvProps CollModel CollProps.
Import ListNotations.
Open Scope nat_scope.

(** ** Specification *)

(** [k] times ++. *)
Fixpoint steps {V} (mem : N -> @st V) (k : nat) (i : iter) : res iter :=
  match k with
  | O => Ok i
  | S k' => let* j := steps mem k' i in next mem j
  end.

(** ** Proofs *)

Section P.
Context {V : Type}.
Variable cat : V -> nat.
Variable managed : nat -> bool.
Variable dup : V -> V.
Variable copyable : nat -> bool.
Hypothesis Hdup : forall v, cat (dup v) = cat v.
Notation holds := (@holds V cat managed dup copyable).

Section M.
Variable mem : N -> @st V.

(** Where ++ has taken begin() after [k] steps. *)
Definition stands (it : iter) (ls : list (list (option V))) (c0 cn e0 en k : nat) (id : N) : Prop :=
  nindex it = N.of_nat (c0 + k mod cn) /\ epos it = N.of_nat (e0 + k / cn) /\
  eend it = N.of_nat (e0 + en) /\ iident it = id /\
  (k < cn * en -> node_read mem it =
     Ok (N.of_nat (c0 + k mod cn), N.of_nat (e0 + k / cn), nth (e0 + k / cn) (nth (c0 + k mod cn) ls []) None)).

Lemma stands_eq it it' ls c0 cn e0 en j k id : 0 < cn ->
  stands it ls c0 cn e0 en j id -> stands it' ls c0 cn e0 en k id -> iter_eq it it' = (j =? k).
Proof.
  intros Hc (A1 & A2 & A3 & A4 & _) (B1 & B2 & B3 & B4 & _). unfold iter_eq.
  rewrite A1, A2, A3, A4, B1, B2, B3, B4, !N.eqb_refl. cbn [negb orb].
  pose proof (Nat.div_mod j cn ltac:(lia)) as J. pose proof (Nat.div_mod k cn ltac:(lia)) as K.
  destruct (N.eqb_spec (N.of_nat (e0 + j / cn)) (N.of_nat (e0 + k / cn))) as [E|E]; cbn [negb orb].
  - assert (j / cn = k / cn) as E' by lia. rewrite E' in J.
    destruct (N.eqb_spec (N.of_nat (c0 + j mod cn)) (N.of_nat (c0 + k mod cn))),
      (Nat.eqb_spec j k); auto.
    + exfalso. assert (j mod cn = k mod cn) as M by lia. rewrite M in J. lia.
    + subst k. congruence.
  - destruct (Nat.eqb_spec j k); auto. subst k. congruence.
Qed.

Lemma begin_steps c ps ls L c0 cn e0 en :
  Forall2 (holds mem) ps ls -> (forall l, In l ls -> length l = L) -> (N.of_nat L < 2 ^ 64)%N ->
  (N.of_nat (length ps) < 2 ^ 60)%N ->
  vecs c = ps -> cstart c = N.of_nat c0 -> csize c = N.of_nat cn ->
  estart c = N.of_nat e0 -> esize c = N.of_nat en ->
  0 < cn -> c0 + cn <= length ps -> 0 < en -> e0 + en <= L ->
  exists b e, begin_ mem c = Ok b /\ end_ c = Ok e /\ stands e ls c0 cn e0 en (cn * en) (ident c) /\
    forall k, k <= cn * en -> exists it, steps mem k b = Ok it /\ stands it ls c0 cn e0 en k (ident c).
Proof using Hdup.
  intros HF HL1 HL2 Hn Hv Hc1 Hc2 He1 He2 H1 H2 H3 H4.
  unfold begin_, end_, build_state. rewrite Hv, Hc1, Hc2, He1, He2.
  destruct (N.leb_spec (2 ^ 60) (N.of_nat cn)); [lia|].
  destruct (N.ltb_spec (N.of_nat (length ps)) (N.of_nat c0 + N.of_nat cn)); [lia|].
  cbn [bind]. rewrite !Nnat.Nat2N.id.
  set (qs := firstn cn (skipn c0 ps)). set (l0 := map (fun p => IT p 0) qs).
  assert (length qs = cn) as Hlen by (unfold qs; rewrite firstn_length, skipn_length; lia).
  assert (map ivec l0 = qs) as Hl0 by (unfold l0; rewrite map_map; apply map_id).
  assert (forall j, j < cn -> exists q,
    nth_error qs j = Some q /\ holds mem q (nth (c0 + j) ls []) /\ length (nth (c0 + j) ls []) = L) as Hq.
  { intros j Hj. destruct (nth_error ps (c0 + j)) as [q|] eqn:E.
    - exists q. destruct (Forall2_nth_error _ _ _ _ _ HF E) as (y & Ey & Hy).
      rewrite (nth_error_nth _ _ [] Ey). split; [|split].
      + unfold qs. rewrite nth_error_firstn_lt by lia. now rewrite nth_error_skipn.
      + exact Hy.
      + apply HL1. eapply nth_error_In; eauto.
    - apply nth_error_None in E. lia. }
  clearbody l0. assert (e0 + en <= L) as Hpe by lia.
  assert ((N.of_nat (c0 + cn) < 2 ^ 64)%N) as Hc by lia.
  destruct (load_at cat managed dup copyable Hdup mem qs ls c0 cn (e0 + en) L (ident c) H1 Hlen Hpe HL2 Hc Hq l0 0 e0 Hl0 H1 ltac:(lia)) as (l' & cu & E & A).
  assert (iter_begin mem l0 (N.of_nat e0) (N.of_nat en) (N.of_nat c0) (ident c) =
          Ok (SI l' (N.of_nat (c0 + 0)) (Some cu) (N.of_nat e0) (N.of_nat (e0 + en)) (N.of_nat c0) (ident c))) as ->.
  { unfold iter_begin. destruct l0 as [|x l0']; [cbn in Hl0; rewrite <- Hl0 in Hlen; cbn in Hlen; lia|].
    rewrite E. cbn [bind]. rewrite wadd_small by lia.
    do 2 f_equal; [f_equal; lia|lia]. }
  eexists. eexists. split; [reflexivity|]. split; [reflexivity|].
  split.
  { unfold stands, iter_end. cbn [nindex epos eend iident]. rewrite wadd_small by lia.
    rewrite (Nat.mul_comm cn en), Nat.mod_mul, Nat.div_mul by lia.
    repeat split; try lia. }
  intros k Hk.
  assert (exists it, steps mem k (SI l' (N.of_nat (c0 + 0)) (Some cu) (N.of_nat e0) (N.of_nat (e0 + en))
             (N.of_nat c0) (ident c)) = Ok it /\
    (k < cn * en -> at_ mem it qs ls c0 (c0 + k mod cn) (e0 + k / cn) (e0 + en) (ident c)) /\
    (k = cn * en -> at_end it c0 (e0 + en) (ident c))) as (it & S1 & S2 & S3).
  { induction k as [|k IH].
    - eexists. split; [reflexivity|]. split; [|lia]. intros _.
      rewrite Nat.mod_0_l, Nat.div_0_l by lia. rewrite (Nat.add_0_r e0). exact A.
    - destruct IH as (it & S1 & S2 & _); [lia|]. specialize (S2 ltac:(lia)).
      cbn [steps]. rewrite S1. cbn [bind].
      pose proof (Nat.div_mod k cn ltac:(lia)) as Dk.
      pose proof (Nat.mod_upper_bound k cn ltac:(lia)) as Mk.
      assert (k / cn < en) as Kd by (apply Nat.div_lt_upper_bound; lia).
      destruct (Nat.lt_ge_cases (S (k mod cn)) cn) as [Hr|Hr].
      + destruct (next_row cat managed dup copyable Hdup mem qs ls c0 cn (e0 + en) L (ident c)
                    H1 Hlen Hpe HL2 Hc Hq it (k mod cn) (e0 + k / cn) S2 Hr ltac:(lia)) as (it' & E' & A').
        exists it'. split; [exact E'|].
        assert (S k / cn = k / cn /\ S k mod cn = S (k mod cn)) as [-> ->].
        { split; [symmetry; apply (Nat.div_unique (S k) cn (k / cn) (S (k mod cn))); lia
                 |symmetry; apply (Nat.mod_unique (S k) cn (k / cn) (S (k mod cn))); lia]. }
        split; [intros _; exact A'|]. intros Hke. exfalso.
        assert (cn * (k / cn) + S (k mod cn) = cn * en) as X by lia.
        assert (cn * S (k / cn) <= cn * en) by (apply Nat.mul_le_mono_l; lia).
        rewrite Nat.mul_succ_r in *. lia.
      + assert (k mod cn = cn - 1) as Em by lia.
        assert (S k / cn = S (k / cn) /\ S k mod cn = 0) as [Ed Em'].
        { split; [symmetry; apply (Nat.div_unique (S k) cn (S (k / cn)) 0); rewrite ?Nat.mul_succ_r; lia
                 |symmetry; apply (Nat.mod_unique (S k) cn (S (k / cn)) 0); rewrite ?Nat.mul_succ_r; lia]. }
        rewrite Em in S2.
        destruct (Nat.lt_ge_cases (S (k / cn)) en) as [Hd|Hd].
        * destruct (next_col cat managed dup copyable Hdup mem qs ls c0 cn (e0 + en) L (ident c)
                      H1 Hlen Hpe HL2 Hc Hq it (e0 + k / cn) S2 ltac:(lia)) as (it' & E' & A').
          exists it'. split; [exact E'|]. rewrite Ed, Em'.
          replace (e0 + S (k / cn)) with (S (e0 + k / cn)) by lia.
          split; [intros _; exact A'|]. intros Hke. exfalso.
          assert (cn * S (S (k / cn)) <= cn * en) by (apply Nat.mul_le_mono_l; lia).
          rewrite !Nat.mul_succ_r in *. lia.
        * destruct (next_end mem qs ls c0 cn (e0 + en) L (ident c) H1 Hlen Hpe HL2 Hc
                      it (e0 + k / cn) S2 ltac:(lia)) as (it' & E' & A').
          exists it'. split; [exact E'|]. split; [|intros _; exact A'].
          intros Hlt. exfalso. assert (S (k / cn) = en) as X by lia. rewrite <- X, Nat.mul_succ_r in Hlt. lia. }
  exists it. split; [exact S1|]. unfold stands.
  destruct (Nat.eq_dec k (cn * en)) as [->|Hne].
  - destruct (S3 eq_refl) as (X1 & X2 & X3 & X4).
    rewrite (Nat.mul_comm cn en), Nat.mod_mul, Nat.div_mul, Nat.add_0_r by lia.
    repeat split; auto. lia.
  - destruct (S2 ltac:(lia)) as (X1 & X2 & X3 & X4 & X5 & X6 & X7). repeat split; auto.
Qed.
End M.

(** ** C89: theorems *)

(** The hypotheses are those of C58_walk_partial.  There are [cn * en + 1] iterators:
    begin() after 0, 1, ... steps.  Each but the last shows the entry of its place,
    the last equals end(), and two of them are equal exactly when they were stepped
    equally often.  Postfix ++ gives the iterator before the step.
    Missing for the full statement: ranges with start + size >= 2^64 (finding K1). *)
Theorem C89_iterators_partial : forall mem0 mem ps ls0 ls L rs,
  Forall2 (holds mem0) ps ls0 -> Forall2 (holds mem) ps ls ->
  (forall l, In l ls0 -> length l = L) -> (forall l, In l ls -> length l = L) ->
  ps <> [] -> 0 < L -> (N.of_nat L < 2 ^ 64)%N -> (N.of_nat (length ps) < 2 ^ 60)%N ->
  Forall no_wrap rs ->
  exists c c0 cn e0 en b e, make mem0 ps = Ok c /\
    fold_left (fun x r => in_force (N.of_nat (length ps)) (N.of_nat L) r x) rs
      ((0, N.of_nat (length ps)), (0, N.of_nat L))%N =
    ((N.of_nat c0, N.of_nat cn), (N.of_nat e0, N.of_nat en)) /\
    begin_ mem (fold_left (fun c r => call r c) rs c) = Ok b /\
    end_ (fold_left (fun c r => call r c) rs c) = Ok e /\
    forall k, k <= cn * en -> exists it, steps mem k b = Ok it /\
      (k < cn * en -> exists x it', nth_error (visits ls c0 cn e0 en) k = Some x /\ node_read mem it = Ok x /\
         steps mem (S k) b = Ok it' /\ next_post mem it = Ok (it, it')) /\
      iter_eq it e = (k =? cn * en) /\ iter_eq e it = (k =? cn * en) /\
      forall j it', j <= cn * en -> steps mem j b = Ok it' -> iter_eq it it' = (k =? j).
Proof using Hdup.
  intros mem0 mem ps ls0 ls L rs F0 F H0 H Hne HL HL2 Hn Hrs.
  assert (exists c, make mem0 ps = Ok c /\ vecs c = ps /\ msize c = N.of_nat L /\
            ranges c = ((0, N.of_nat (length ps)), (0, N.of_nat L))%N) as (c & E1 & E2 & E3 & E4).
  { unfold make. rewrite (init_spec cat managed dup copyable mem0 ps ls0 0 F0). cbn [N.eqb].
    replace (forallb (fun l => negb (length l =? 0)) ls0) with true.
    2: { symmetry. apply forallb_forall. intros l Hl. rewrite (H0 l Hl). destruct (Nat.eqb_spec L 0); [lia|reflexivity]. }
    destruct F0 as [|p l ps ls0 Hp F0]; [congruence|].
    replace (forallb (fun x => length x =? length l) ls0) with true.
    2: { symmetry. apply forallb_forall. intros x Hx. rewrite (H0 l), (H0 x); [apply Nat.eqb_refl|cbn; auto|cbn; auto]. }
    cbn [bind]. eexists. split; [reflexivity|]. unfold ranges. cbn [vecs msize cstart csize estart esize].
    rewrite (H0 l) by (cbn; auto). auto. }
  destruct (calls_spec rs c (N.of_nat (length ps)) (N.of_nat L) Hrs ltac:(congruence) E3) as (R1 & R2 & R3).
  rewrite E4 in R1. rewrite E2 in R2.
  set (c' := fold_left (fun c r => call r c) rs c) in *.
  assert (inside (N.of_nat (length ps)) (N.of_nat L) (ranges c')) as Hin.
  { rewrite R1. apply force_inside. unfold inside. cbn. destruct ps; [congruence|]. cbn [length]. lia. }
  destruct Hin as (I1 & I2 & I3 & I4). unfold ranges in I1, I2, I3, I4. cbn [fst snd] in *.
  set (c0 := N.to_nat (cstart c')). set (cn := N.to_nat (csize c')).
  set (e0 := N.to_nat (estart c')). set (en := N.to_nat (esize c')).
  destruct (begin_steps mem c' ps ls L c0 cn e0 en) as (b & e & B1 & B2 & B3 & B4); auto;
    try (unfold c0, cn, e0, en; lia); try (unfold c0, cn, e0, en; now rewrite Nnat.N2Nat.id).
  exists c, c0, cn, e0, en, b, e. split; [exact E1|].
  split. { unfold c0, cn, e0, en. rewrite !Nnat.N2Nat.id. rewrite <- R1. reflexivity. }
  split; [exact B1|]. split; [exact B2|].
  assert (0 < cn) as Hcn by (unfold cn; lia).
  intros k Hk. destruct (B4 k Hk) as (it & S1 & S2). exists it. split; [exact S1|].
  split; [|split; [|split]].
  - intros Hlt. destruct (B4 (S k) Hlt) as (it' & T1 & T2).
    eexists. exists it'. split; [apply C58_each_once; exact Hlt|].
    split; [apply S2; exact Hlt|]. split; [exact T1|].
    unfold next_post. cbn [steps] in T1. rewrite S1 in T1. cbn [bind] in T1. now rewrite T1.
  - apply (stands_eq mem it e ls c0 cn e0 en k (cn * en) (ident c')); auto.
  - rewrite Nat.eqb_sym. apply (stands_eq mem e it ls c0 cn e0 en (cn * en) k (ident c')); auto.
  - intros j it' Hj T1. destruct (B4 j Hj) as (it2 & T2 & T3). rewrite T1 in T2. injection T2 as <-.
    apply (stands_eq mem it it' ls c0 cn e0 en k j (ident c')); auto.
Qed.
End P.

(** ** Concrete cases *)

(** The collection of C58_case: four entries, five iterators. *)
Example C89_case :
  Forall2 (holds xcat xman xdup xcopy xmem) xps xls /\ (forall l, In l xls -> length l = 8) /\ Forall no_wrap xcalls /\
  exists c b e i1 i4, make xmem xps = Ok c /\
    begin_ xmem (fold_left (fun c r => call r c) xcalls c) = Ok b /\
    end_ (fold_left (fun c r => call r c) xcalls c) = Ok e /\
    steps xmem 1 b = Ok i1 /\ steps xmem 4 b = Ok i4 /\
    node_read xmem i1 = Ok (2, 5, Some (2%nat, 77%nat))%N /\
    iter_eq b i1 = false /\ iter_eq i1 i1 = true /\ iter_eq i4 e = true.
Proof.
  split; [exact xholds|]. split; [exact xlen|].
  split; [repeat (apply Forall_cons; [reflexivity|]); apply Forall_nil|].
  do 5 eexists. split; [vm_compute; reflexivity|]. split; [vm_compute; reflexivity|].
  split; [vm_compute; reflexivity|]. split; [vm_compute; reflexivity|]. split; [vm_compute; reflexivity|].
  vm_compute. auto.
Qed.

(** Iterators of a collection: begin() or end() after any calls that set a range and any
    number of steps. *)
Definition iter_of {V} (mem0 mem : N -> @st V) (ps : list N) (i : iter) : Prop :=
  exists c rs k b, make mem0 ps = Ok c /\
    (begin_ mem (fold_left (fun c r => call r c) rs c) = Ok b \/
     end_ (fold_left (fun c r => call r c) rs c) = Ok b) /\ steps mem k b = Ok i.

Lemma fold_ident_lxor B : forall x y,
  (N.lxor (fold_ident B x) (fold_ident B y)) =
  match B with [] => N.lxor x y | _ => (N.shiftl (N.lxor x y) (N.of_nat (length B)) mod 2 ^ 64)%N end.
Proof.
  assert (forall x y p, N.lxor (N.lxor (N.shiftl x 1 mod W) p) (N.lxor (N.shiftl y 1 mod W) p) =
            (N.shiftl (N.lxor x y) 1 mod 2 ^ 64)%N) as H1.
  { intros x y p. unfold W. apply N.bits_inj. intros n. rewrite !N.lxor_spec.
    destruct (N.lt_ge_cases n 64) as [L|L].
    - rewrite !N.mod_pow2_bits_low, N.shiftl_lxor, N.lxor_spec by exact L.
      now destruct (N.testbit (N.shiftl x 1) n), (N.testbit (N.shiftl y 1) n), (N.testbit p n).
    - rewrite !N.mod_pow2_bits_high by exact L. now destruct (N.testbit p n). }
  induction B as [|p B IH]; intros x y; [reflexivity|].
  cbn [fold_ident fold_left]. fold (fold_ident B). 
  change (fold_left (fun id p => N.lxor (N.shiftl id 1 mod W) p) B ?z) with (fold_ident B z).
  rewrite IH, H1. destruct B as [|p' B]; [reflexivity|].
  apply N.bits_inj. intros n. destruct (N.lt_ge_cases n 64) as [L|L].
  - rewrite !N.mod_pow2_bits_low by exact L.
    destruct (N.lt_ge_cases n (N.of_nat (length (p :: p' :: B)))) as [L1|L1].
    + rewrite (N.shiftl_spec_low _ (N.of_nat (length (p :: p' :: B)))) by exact L1.
      destruct (N.lt_ge_cases n (N.of_nat (length (p' :: B)))) as [L2|L2]; [now rewrite N.shiftl_spec_low|].
      rewrite N.shiftl_spec_high' by exact L2. rewrite N.mod_pow2_bits_low by lia.
      rewrite N.shiftl_spec_low; [reflexivity|]. cbn [length] in *. lia.
    + rewrite !N.shiftl_spec_high' by (cbn [length] in *; lia). rewrite N.mod_pow2_bits_low by lia.
      rewrite N.shiftl_spec_high' by (cbn [length] in *; lia). f_equal. cbn [length]. lia.
  - now rewrite !N.mod_pow2_bits_high.
Qed.

Lemma fold_ident_differ B x y h : x <> y -> (x < 2 ^ h)%N -> (y < 2 ^ h)%N -> (h + N.of_nat (length B) <= 64)%N ->
  fold_ident B x <> fold_ident B y.
Proof.
  intros Hn Hx Hy Hh E. pose proof (fold_ident_lxor B x y) as L. rewrite E, N.lxor_nilpotent in L.
  apply Hn. apply N.lxor_eq. destruct B as [|p B]; [now symmetry|].
  assert (N.shiftl (N.lxor x y) (N.of_nat (length (p :: B))) < 2 ^ 64)%N as S.
  { rewrite N.shiftl_mul_pow2.
    assert (N.lxor x y < 2 ^ h)%N as X.
    { destruct (N.eq_dec (N.lxor x y) 0) as [->|N0]; [apply N.neq_0_lt_0, N.pow_nonzero; lia|].
      apply N.log2_lt_pow2; [lia|]. eapply N.le_lt_trans; [apply N.log2_lxor|].
      destruct (N.eq_dec x 0) as [->|Nx], (N.eq_dec y 0) as [->|Ny]; rewrite ?N.lxor_nilpotent in N0; try congruence.
      - rewrite N.max_r by (cbn; lia). apply N.log2_lt_pow2; lia.
      - rewrite N.max_l by (cbn; lia). apply N.log2_lt_pow2; lia.
      - apply N.max_lub_lt; apply N.log2_lt_pow2; lia. }
    eapply N.lt_le_trans; [apply N.mul_lt_mono_pos_r; [|exact X]|].
    { apply N.neq_0_lt_0, N.pow_nonzero. lia. }
    rewrite <- N.pow_add_r. apply N.pow_le_mono_r; lia. }
  rewrite N.mod_small in L by exact S. symmetry in L.
  rewrite N.shiftl_eq_0_iff in L. exact L.
Qed.

Lemma fold_ident_app A B x : fold_ident (A ++ B) x = fold_ident B (fold_ident A x).
Proof. unfold fold_ident. apply fold_left_app. Qed.

Lemma next_ident {V} (mem : N -> @st V) i j : next mem i = Ok j -> iident j = iident i.
Proof.
  unfold next. intros E.
  destruct (_ <=? _)%N in E; [destruct (_ <=? _)%N in E; [now injection E as <-|]|];
    (destruct (load mem _ _ _) as [[l c]| |] in E; cbn [bind] in E; [|discriminate..]; now injection E as <-).
Qed.

Lemma iter_of_ident {V} (mem0 mem : N -> @st V) p t i : iter_of mem0 mem (p :: t) i -> iident i = fold_ident t p.
Proof.
  intros (c & rs & k & b & E & Hb & Hs).
  assert (ident c = fold_ident t p) as Ic.
  { unfold make in E. destruct (init_vectors mem0 (p :: t) 0) as [m| |]; cbn [bind] in E; [|discriminate..]. now injection E as <-. }
  assert (forall rs c, ident (fold_left (fun c r => call r c) rs c) = ident c) as Hc.
  { clear. induction rs as [|r rs IH]; intros c; [reflexivity|]. cbn [fold_left]. rewrite IH.
    destruct r as [s z|s z]; unfold call, set_collection_range, set_element_range.
    - destruct (check_range (N.of_nat (length (vecs c))) s z); reflexivity.
    - destruct (check_range (msize c) s z); reflexivity. }
  assert (iident b = fold_ident t p) as Ib.
  { rewrite <- Ic, <- (Hc rs c). destruct Hb as [Hb|Hb]; unfold begin_, end_ in Hb;
      (destruct (build_state _) as [l| |] in Hb; cbn [bind] in Hb; [|discriminate..]).
    - unfold iter_begin in Hb. destruct l as [|it l]; [now injection Hb as <-|].
      destruct (load mem _ _ _) as [[l' c']| |] in Hb; cbn [bind] in Hb; [|discriminate..]. now injection Hb as <-.
    - now injection Hb as <-. }
  revert i Hs. induction k as [|k IH]; intros i Hs; cbn [steps] in Hs; [now injection Hs as <-|].
  destruct (steps mem k b) as [j| |] eqn:Ej; cbn [bind] in Hs; [|discriminate..].
  rewrite (next_ident mem j i Hs). now apply IH.
Qed.

(** Two collections that differ in one container: no iterator of one equals an iterator
    of the other, as long as the addresses of the two have so few bits that none is
    shifted out ([h] bits, with at most 64 - [h] containers after them).
    Missing for the full statement: collections that differ in several containers
    (see C89_identity_refuted). *)
Theorem C89_identity_partial : forall V (mem0 mem mem0' mem' : N -> @st V) A p q B h i j,
  p <> q -> (p < 2 ^ h)%N -> (q < 2 ^ h)%N -> (h + N.of_nat (length B) <= 64)%N ->
  iter_of mem0 mem (A ++ p :: B) i -> iter_of mem0' mem' (A ++ q :: B) j -> iter_eq i j = false.
Proof.
  intros V mem0 mem mem0' mem' A p q B h i j Hn Hp Hq Hh Hi Hj. unfold iter_eq.
  destruct (N.eqb_spec (iident i) (iident j)) as [E|E]; [|reflexivity]. exfalso.
  destruct A as [|a A]; cbn [app] in Hi, Hj; rewrite (iter_of_ident _ _ _ _ _ Hi), (iter_of_ident _ _ _ _ _ Hj) in E.
  - now apply (fold_ident_differ B p q h) in E.
  - rewrite !fold_ident_app in E. cbn [fold_ident fold_left] in E.
    change (fold_left (fun id p => N.lxor (N.shiftl id 1 mod W) p) B ?z) with (fold_ident B z) in E.
    set (z := (N.shiftl _ 1 mod W)%N) in E.
    assert (N.lxor (N.lxor z p) (N.lxor z q) = N.lxor p q) as X.
    { apply N.bits_inj. intros n. rewrite !N.lxor_spec. now destruct (N.testbit z n), (N.testbit p n), (N.testbit q n). }
    pose proof (fold_ident_lxor B (N.lxor z p) (N.lxor z q)) as Y. rewrite X, E, N.lxor_nilpotent in Y.
    apply (fold_ident_differ B p q h); auto. apply N.lxor_eq. now rewrite fold_ident_lxor, <- Y.
Qed.
Example C89_identity_case :
  exists i j, iter_of xmem xmem ([100] ++ 104 :: [200])%N i /\ iter_of xmem xmem ([100] ++ 100 :: [200])%N j /\
    (104 < 2 ^ 48)%N /\ (100 < 2 ^ 48)%N /\ (48 + N.of_nat (length [200]) <= 64)%N /\ iter_eq i j = false /\ iter_eq i i = true.
Proof.
  do 2 eexists. split.
  { do 2 eexists. exists 1. eexists. split; [vm_compute; reflexivity|].
    split; [left; instantiate (2 := []); vm_compute; reflexivity|vm_compute; reflexivity]. }
  split.
  { do 2 eexists. exists 1. eexists. split; [vm_compute; reflexivity|].
    split; [left; instantiate (2 := []); vm_compute; reflexivity|vm_compute; reflexivity]. }
  split; [reflexivity|]. split; [reflexivity|]. split; [cbn; lia|]. split; vm_compute; reflexivity.
Qed.

(** Finding K3: the number that stands for the containers is no identity.  Two
    collections over different containers, at addresses 1024 bytes and more apart,
    have begin() iterators that compare equal and show different entries. *)
Definition ymem (p : N) : @st xv :=
  if (p =? 1024)%N then s2 else mk_size 1 8.
Theorem C89_identity_refuted :
  exists c d i j, make ymem [1024; 2048]%N = Ok c /\ make ymem [2048; 4096]%N = Ok d /\
    begin_ ymem c = Ok i /\ begin_ ymem d = Ok j /\ iter_eq i j = true /\
    node_read ymem i <> node_read ymem j.
Proof.
  do 4 eexists. split; [vm_compute; reflexivity|]. split; [vm_compute; reflexivity|].
  split; [vm_compute; reflexivity|]. split; [vm_compute; reflexivity|].
  split; [vm_compute; reflexivity|]. vm_compute. discriminate.
Qed.

(** Finding K4: default constructed iterators are compared by an index that is never
    set: whether they are equal depends on what is found there. *)
Theorem C89_default_refuted :
  (forall x, iter_eq (iter0 x) (iter0 x) = true) /\ (forall x y, x <> y -> iter_eq (iter0 x) (iter0 y) = false).
Proof.
  split; intros; unfold iter_eq; cbn; [apply N.eqb_refl|now apply N.eqb_neq].
Qed.

(** One query for all the theorems of this file. *)
Definition CollProps2_theorems := (@C89_iterators_partial, @C89_identity_partial, @C89_identity_refuted, @C89_default_refuted).
Print Assumptions CollProps2_theorems.
