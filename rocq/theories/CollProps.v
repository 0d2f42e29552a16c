(** Properties of multi_type_vector's collection (C58).

    The specification: the containers show sequences of entries (MtvSpec.shows);
    [visits] lists what a sideways walk has to show; [fits] is a valid range. *)
From Coq Require Import List ZArith NArith Lia Bool.
From Verif Require Import Base MtvModel MtvModel2 MtvSpec MtvProofs MtvBridge MtvBridge2 MtvProps CollModel.
Import ListNotations.
Open Scope nat_scope.

(** ** Specification *)

Section S.
Context {V : Type}.

(** Entries at positions p, p+1, ... (m of them); at each position those of the
    sequences c, c+1, ... (n of them), with sequence index and position. *)
Definition visits (ls : list (list (option V))) (c n p m : nat) : list (N * N * option V) :=
  flat_map (fun q => map (fun j => (N.of_nat j, N.of_nat q, nth q (nth j ls []) None)) (seq c n))
           (seq p m).

(** [start, start + size) is a non-empty part of [0, n). *)
Definition fits (n start size : N) : bool :=
  (start <? n)%N && (0 <? size)%N && (start + size <=? n)%N.

(** A program's calls that set ranges; a call that throws is caught. *)
Inductive rcall := RColl (start size : N) | RElem (start size : N).

Definition call (r : rcall) (c : coll) : coll :=
  match (match r with
         | RColl s z => set_collection_range s z c
         | RElem s z => set_element_range s z c
         end) with
  | Ok c' => c'
  | _ => c
  end.

(** The ranges in force after the calls: (collection start, size), (element start,
    size), for [n] sequences of length [m]. *)
Definition in_force (n m : N) (r : rcall) (x : (N * N) * (N * N)) : (N * N) * (N * N) :=
  match r with
  | RColl s z => if fits n s z then ((s, z), snd x) else x
  | RElem s z => if fits m s z then (fst x, (s, z)) else x
  end.

(** start + size does not leave size_type. *)
Definition no_wrap (r : rcall) : Prop :=
  match r with RColl s z | RElem s z => (s + z < 2 ^ 64)%N end.
End S.

(** ** Proofs *)

Section P.
Context {V : Type}.
Variable cat : V -> nat.
Variable managed : nat -> bool.
Variable dup : V -> V.
Variable copyable : nat -> bool.
Hypothesis Hdup : forall v, cat (dup v) = cat v.
Notation reach := (@reach V cat managed dup copyable).

(** Container of the program showing a sequence. *)
Definition holds (mem : N -> st) (p : N) (l : list (option V)) : Prop :=
  reach anyop (mem p) /\ shows (mem p) l.

Lemma wadd_small a b : (a + b < 2 ^ 64)%N -> wadd a b = (a + b)%N.
Proof. intros H. unfold wadd, W. now apply N.mod_small. Qed.

Lemma wsub_small a b : (b <= a)%N -> (a < 2 ^ 64)%N -> wsub a b = (a - b)%N.
Proof.
  intros H1 H2. unfold wsub, W. rewrite (N.mod_small b) by lia.
  replace (a + 2 ^ 64 - b)%N with (a - b + 1 * 2 ^ 64)%N by lia.
  rewrite N.mod_add by discriminate. apply N.mod_small. lia.
Qed.

Section M.
Variable mem : N -> @st V.

Lemma load_spec (l : list item) k p q (lq : list (option V)) :
  nth_error (map ivec l) k = Some q -> holds mem q lq -> p < length lq ->
  exists l' c, load mem l k (N.of_nat p) = Ok (l', c) /\ map ivec l' = map ivec l /\
    forall x a b o i, node_read mem (SI l' x (Some c) a b o i) = Ok (x, N.of_nat p, nth p lq None).
Proof using Hdup.
  intros Hk [Hr Hs] Hp.
  rewrite nth_error_map in Hk. destruct (nth_error l k) as [c|] eqn:Ec; [|discriminate].
  cbn in Hk. injection Hk as Hq.
  pose proof (size_len _ _ Hs) as Hl.
  assert (p < size (mem q)) as Hp' by lia.
  destruct (C48_position cat managed dup copyable Hdup (mem q) (Some (Some (iblk c))) p Hr Hp')
    as (i & o & E1 & E2 & E3 & E4).
  unfold load. rewrite Ec. cbn [deref bind]. rewrite Nnat.Nat2N.id, Hq, E1. cbn [bind fst].
  pose proof (proj2 Hs p (nth p lq None)) as Hg. rewrite (nth_error_nth' lq None Hp) in Hg.
  specialize (Hg eq_refl).
  (* the block of the position *)
  assert (exists d, data_at i (mem q) = Ok d /\
            match d with None => nth p lq None = None | Some _ => exists v, nth p lq None = Some v end)
    as (d & Ed & Hd).
  { assert (position None p (mem q) = Ok (i, o)) as En.
    { revert E1. unfold position. destruct (p =? cs (mem q)); [auto|].
      rewrite (locate_hint_any cat (mem q) (Some (iblk c)) p); auto.
      - now apply (reach_good cat managed dup copyable Hdup) in Hr.
      - unfold size in *. lia. }
    revert En Hg. unfold position, get. destruct (Nat.eqb_spec p (cs (mem q))); [unfold size in *; lia|].
    destruct (locate None p (mem q)) as [b| |]; cbn [bind]; try discriminate.
    destruct (pos_at b (mem q)) as [pb| |]; cbn [bind]; try discriminate.
    intros E. injection E as -> ->.
    destruct (data_at i (mem q)) as [[e|]| |]; cbn [bind]; try discriminate.
    - destruct (deref (nth_error (ev e) o)) as [v| |]; cbn [bind]; try discriminate.
      intros E. exists (Some e). split; [reflexivity|]. exists v. congruence.
    - intros E. exists None. split; [reflexivity|]. congruence. }
  unfold blk_type. rewrite Ed. cbn [bind].
  eexists. eexists. split; [reflexivity|]. split.
  { rewrite <- Hq. clear -Ec. revert k Ec. induction l as [|a l IH]; intros [|k] Ec; cbn in *; try discriminate.
    - injection Ec as ->. reflexivity.
    - f_equal. now apply IH. }
  intros x a b o' i'. unfold node_read, node_val. cbn [ncur nindex deref bind ctype cposition celem cvec].
  destruct d as [e|]; cbn [dcat].
  - destruct Hd as [v Hv]. rewrite Hv in Hg |- *. rewrite (E4 v Hg). reflexivity.
  - now rewrite Hd.
Qed.

(** The iterator at vector [j] and position [p]. *)
Definition at_ (it : iter) (qs : list N) (ls : list (list (option V))) (c0 j p pe : nat) (id : N) : Prop :=
  map ivec (items it) = qs /\ nindex it = N.of_nat j /\ epos it = N.of_nat p /\
  eend it = N.of_nat pe /\ ioff it = N.of_nat c0 /\ iident it = id /\
  node_read mem it = Ok (N.of_nat j, N.of_nat p, nth p (nth j ls []) None).

(** The end iterator. *)
Definition at_end (it : iter) (c0 pe : nat) (id : N) : Prop :=
  nindex it = N.of_nat c0 /\ epos it = N.of_nat pe /\ eend it = N.of_nat pe /\ iident it = id.

Section L.
Variables (qs : list N) (ls : list (list (option V))) (c0 cn pe L : nat) (id : N).
Hypothesis Hcn : 0 < cn.
Hypothesis Hlen : length qs = cn.
Hypothesis Hpe : pe <= L.
Hypothesis HL : (N.of_nat L < 2 ^ 64)%N.
Hypothesis Hc : (N.of_nat (c0 + cn) < 2 ^ 64)%N.
Hypothesis Hq : forall j, j < cn -> exists q,
  nth_error qs j = Some q /\ holds mem q (nth (c0 + j) ls []) /\ length (nth (c0 + j) ls []) = L.

Lemma load_at l j p : map ivec l = qs -> j < cn -> p < pe ->
  exists l' c, load mem l j (N.of_nat p) = Ok (l', c) /\
    at_ (SI l' (N.of_nat (c0 + j)) (Some c) (N.of_nat p) (N.of_nat pe) (N.of_nat c0) id) qs ls c0 (c0 + j) p pe id.
Proof using Hdup Hpe Hq Hlen Hcn Hc HL.
  intros Hl Hj Hp. destruct (Hq j Hj) as (q & E & H & El).
  destruct (load_spec l j p q (nth (c0 + j) ls [])) as (l' & c & E1 & E2 & E3).
  - now rewrite Hl. - exact H. - lia.
  - exists l', c. split; [exact E1|]. unfold at_. cbn [items nindex epos eend ioff iident].
    repeat split; auto. congruence.
Qed.

Lemma next_row it j p : at_ it qs ls c0 (c0 + j) p pe id -> S j < cn -> p < pe ->
  exists it', next mem it = Ok it' /\ at_ it' qs ls c0 (c0 + S j) p pe id.
Proof using Hdup Hpe Hq Hlen Hcn Hc HL.
  intros (H1 & H2 & H3 & H4 & H5 & H6 & H7) Hj Hp.
  destruct (load_at (items it) (S j) p H1 Hj Hp) as (l' & c & E & A).
  unfold next. rewrite H2, H3, H4, H5, H6.
  rewrite wadd_small by lia.
  rewrite wsub_small by lia.
  assert (length (items it) = cn) as -> by (rewrite <- Hlen, <- H1; now rewrite map_length).
  destruct (N.leb_spec (N.of_nat cn) (N.of_nat (c0 + j) + 1 - N.of_nat c0)); [lia|].
  replace (N.to_nat (N.of_nat (c0 + j) + 1 - N.of_nat c0)) with (S j) by lia.
  rewrite E. cbn [bind]. eexists. split; [reflexivity|].
  replace (N.of_nat (c0 + j) + 1)%N with (N.of_nat (c0 + S j)) by lia. exact A.
Qed.

Lemma next_col it p : at_ it qs ls c0 (c0 + (cn - 1)) p pe id -> S p < pe ->
  exists it', next mem it = Ok it' /\ at_ it' qs ls c0 (c0 + 0) (S p) pe id.
Proof using Hdup Hpe Hq Hlen Hc Hcn HL.
  intros (H1 & H2 & H3 & H4 & H5 & H6 & H7) Hp.
  destruct (load_at (items it) 0 (S p) H1 Hcn Hp) as (l' & c & E & A).
  unfold next. rewrite H2, H3, H4, H5, H6.
  rewrite wadd_small by lia.
  rewrite wsub_small by lia.
  assert (length (items it) = cn) as -> by (rewrite <- Hlen, <- H1; now rewrite map_length).
  destruct (N.leb_spec (N.of_nat cn) (N.of_nat (c0 + (cn - 1)) + 1 - N.of_nat c0)); [|lia].
  rewrite wadd_small by lia.
  destruct (N.leb_spec (N.of_nat pe) (N.of_nat p + 1)); [lia|].
  rewrite wsub_small by lia. rewrite N.sub_diag.
  replace (N.of_nat p + 1)%N with (N.of_nat (S p)) by lia. cbn [N.to_nat].
  rewrite E. cbn [bind]. eexists. split; [reflexivity|].
  replace (N.of_nat c0) with (N.of_nat (c0 + 0)) at 1 by (f_equal; lia). exact A.
Qed.

Lemma next_end it p : at_ it qs ls c0 (c0 + (cn - 1)) p pe id -> S p = pe ->
  exists it', next mem it = Ok it' /\ at_end it' c0 pe id.
Proof using Hlen Hc Hcn HL Hpe.
  intros (H1 & H2 & H3 & H4 & H5 & H6 & H7) Hp.
  unfold next. rewrite H2, H3, H4, H5, H6.
  rewrite wadd_small by lia.
  rewrite wsub_small by lia.
  assert (length (items it) = cn) as -> by (rewrite <- Hlen, <- H1; now rewrite map_length).
  destruct (N.leb_spec (N.of_nat cn) (N.of_nat (c0 + (cn - 1)) + 1 - N.of_nat c0)); [|lia].
  rewrite wadd_small by lia.
  destruct (N.leb_spec (N.of_nat pe) (N.of_nat p + 1)); [|lia].
  eexists. split; [reflexivity|]. unfold at_end. cbn [nindex epos eend iident]. repeat split. lia.
Qed.

Definition row (p j : nat) : N * N * option V := (N.of_nat j, N.of_nat p, nth p (nth j ls []) None).

Lemma walk_spec e : at_end e c0 pe id ->
  forall fuel it j p, at_ it qs ls c0 (c0 + j) p pe id -> j < cn -> p < pe ->
  (cn - j) + cn * (pe - S p) < fuel ->
  walk mem fuel it e =
  Ok (Some (map (row p) (seq (c0 + j) (cn - j)) ++
            flat_map (fun q => map (row q) (seq c0 cn)) (seq (S p) (pe - S p)))).
Proof using Hdup Hpe Hq Hlen Hc Hcn HL.
  intros (X1 & X2 & X3 & X4) fuel. induction fuel as [|fuel IH]; intros it j p A Hj Hp Hf; [now apply Nat.nlt_0_r in Hf|].
  cbn [walk].
  assert (iter_eq it e = false) as ->.
  { destruct A as (H1 & H2 & H3 & H4 & H5 & H6 & H7). unfold iter_eq.
    rewrite H3, H4, H6, X2, X3, X4, !N.eqb_refl. cbn [negb orb].
    destruct (N.eqb_spec (N.of_nat p) (N.of_nat pe)); [lia|]. reflexivity. }
  replace (cn - j) with (S (cn - S j)) by lia. cbn [seq map app].
  destruct A as (H1 & H2 & H3 & H4 & H5 & H6 & H7) eqn:EA. rewrite H7. cbn [bind].
  destruct (Nat.lt_ge_cases (S j) cn) as [Hj'|Hj'].
  - destruct (next_row it j p A Hj' Hp) as (it' & E & A'). rewrite E. cbn [bind].
    rewrite (IH it' (S j) p A') by lia. cbn [bind].
    replace (c0 + S j) with (S (c0 + j)) by lia. reflexivity.
  - replace (cn - S j) with 0 by lia. cbn [seq map app].
    assert (j = cn - 1) as -> by lia.
    destruct (Nat.lt_ge_cases (S p) pe) as [Hp'|Hp'].
    + destruct (next_col it p A Hp') as (it' & E & A'). rewrite E. cbn [bind].
      rewrite (IH it' 0 (S p) A').
      * cbn [bind]. replace (pe - S p) with (S (pe - S (S p))) by lia. cbn [seq flat_map].
        rewrite Nat.add_0_r, Nat.sub_0_r. reflexivity.
      * lia.
      * lia.
      * replace (pe - S p) with (S (pe - S (S p))) in Hf by lia. rewrite Nat.mul_succ_r in Hf. lia.
    + assert (S p = pe) as Hpe' by lia.
      destruct (next_end it p A Hpe') as (it' & E & A'). rewrite E. cbn [bind].
      replace (pe - S p) with 0 by lia. cbn [seq flat_map].
      destruct fuel as [|fuel]; [lia|]. cbn [walk].
      destruct A' as (Y1 & Y2 & Y3 & Y4). unfold iter_eq.
      now rewrite Y1, Y2, Y3, Y4, X1, X2, X3, X4, !N.eqb_refl.
Qed.
End L.

Lemma Forall2_nth_error {A B} (R : A -> B -> Prop) l l' i x :
  Forall2 R l l' -> nth_error l i = Some x -> exists y, nth_error l' i = Some y /\ R x y.
Proof.
  intros H. revert i. induction H as [|a b l l' Hab H IH]; intros [|i] E; cbn in *; try discriminate.
  - injection E as <-. eauto.
  - eauto.
Qed.

Lemma nth_error_skipn {A} (l : list A) n i : nth_error (skipn n l) i = nth_error l (n + i).
Proof. revert l. induction n as [|n IH]; intros [|a l]; cbn; auto. now destruct i. Qed.

Lemma nth_error_firstn_lt {A} (l : list A) n i : i < n -> nth_error (firstn n l) i = nth_error l i.
Proof.
  revert l i. induction n as [|n IH]; intros [|a l] [|i] H; cbn; auto; try lia. apply IH. lia.
Qed.

Lemma traverse_spec c ps ls L c0 cn e0 en :
  Forall2 (holds mem) ps ls -> (forall l, In l ls -> length l = L) -> (N.of_nat L < 2 ^ 64)%N ->
  (N.of_nat (length ps) < 2 ^ 60)%N ->
  vecs c = ps -> cstart c = N.of_nat c0 -> csize c = N.of_nat cn ->
  estart c = N.of_nat e0 -> esize c = N.of_nat en ->
  0 < cn -> c0 + cn <= length ps -> 0 < en -> e0 + en <= L ->
  forall fuel, cn * en < fuel -> traverse mem fuel c = Ok (Some (visits ls c0 cn e0 en)).
Proof using Hdup.
  intros HF HL1 HL2 Hn Hv Hc1 Hc2 He1 He2 H1 H2 H3 H4 fuel Hf.
  unfold traverse, begin_, end_, build_state. rewrite Hv, Hc1, Hc2, He1, He2.
  destruct (N.leb_spec (2 ^ 60) (N.of_nat cn)); [lia|].
  destruct (N.ltb_spec (N.of_nat (length ps)) (N.of_nat c0 + N.of_nat cn)); [lia|].
  cbn [bind]. rewrite !Nnat.Nat2N.id.
  set (qs := firstn cn (skipn c0 ps)). set (l0 := map (fun p => IT p 0) qs).
  assert (length qs = cn) as Hlen by (unfold qs; rewrite firstn_length, skipn_length; lia).
  assert (map ivec l0 = qs) as Hl0 by (unfold l0; rewrite map_map; apply map_id).
  assert (forall j, j < cn -> exists q,
    nth_error qs j = Some q /\ holds mem q (nth (c0 + j) ls []) /\ length (nth (c0 + j) ls []) = L) as Hq.
  { intros j Hj. destruct (nth_error ps (c0 + j)) as [q|] eqn:E.
    - exists q. destruct (Forall2_nth_error _ _ _ _ _ HF E) as (y & Ey & Hy).
      rewrite (nth_error_nth _ _ [] Ey). split; [|split].
      + unfold qs. rewrite nth_error_firstn_lt by lia. now rewrite nth_error_skipn.
      + exact Hy.
      + apply HL1. eapply nth_error_In; eauto.
    - apply nth_error_None in E. lia. }
  clearbody l0. assert (e0 + en <= L) as Hpe by lia.
  assert ((N.of_nat (c0 + cn) < 2 ^ 64)%N) as Hc by lia.
  destruct (load_at qs ls c0 cn (e0 + en) L (ident c) H1 Hlen Hpe HL2 Hc Hq l0 0 e0 Hl0 H1 ltac:(lia)) as (l' & cu & E & A).
  assert (iter_begin mem l0 (N.of_nat e0) (N.of_nat en) (N.of_nat c0) (ident c) =
          Ok (SI l' (N.of_nat (c0 + 0)) (Some cu) (N.of_nat e0) (N.of_nat (e0 + en)) (N.of_nat c0) (ident c))) as ->.
  { unfold iter_begin. destruct l0 as [|x l0']; [cbn in Hl0; rewrite <- Hl0 in Hlen; cbn in Hlen; lia|].
    rewrite E. cbn [bind]. rewrite wadd_small by lia.
    do 2 f_equal; [f_equal; lia|lia]. }
  cbn [bind].
  unfold iter_end. rewrite wadd_small by lia.
  replace (N.of_nat e0 + N.of_nat en)%N with (N.of_nat (e0 + en)) by lia.
  erewrite (walk_spec qs ls c0 cn (e0 + en) L (ident c) H1 Hlen Hpe HL2 Hc Hq) with (j := 0) (p := e0).
  - unfold visits. rewrite Nat.add_0_r, Nat.sub_0_r. destruct en as [|en]; [lia|].
    replace (e0 + S en - S e0) with en by lia. reflexivity.
  - unfold at_end. cbn. auto.
  - exact A.
  - lia.
  - lia.
  - destruct en as [|en]; [lia|]. replace (e0 + S en - S e0) with en by lia.
    rewrite Nat.mul_succ_r in Hf. lia.
Qed.

(** *** Constructor *)

Lemma init_spec ps ls m : Forall2 (holds mem) ps ls ->
  init_vectors mem ps m =
  if forallb (fun l => negb (length l =? 0)) ls then
    if (m =? 0)%N then
      match ls with
      | [] => Ok 0%N
      | l :: t => if forallb (fun x => length x =? length l) t then Ok (N.of_nat (length l)) else Throw E_invalid_arg
      end
    else if forallb (fun x => N.of_nat (length x) =? m)%N ls then Ok m else Throw E_invalid_arg
  else Throw E_invalid_arg.
Proof.
  assert (forall ps ls m, Forall2 (holds mem) ps ls -> m <> 0%N ->
    init_vectors mem ps m =
    if forallb (fun l => negb (length l =? 0)) ls then
      if forallb (fun x => N.of_nat (length x) =? m)%N ls then Ok m else Throw E_invalid_arg
    else Throw E_invalid_arg) as H0.
  { clear ps ls m. intros ps ls m H. induction H as [|p l ps ls [Hr Hs] H IH]; intros Hm; [reflexivity|].
    cbn [init_vectors forallb]. unfold check_vector_size. rewrite (size_len _ _ Hs).
    destruct (Nat.eqb_spec (length l) 0) as [E|E]; cbn [negb andb]; [reflexivity|].
    destruct (N.eqb_spec m 0); [congruence|]. rewrite (N.eqb_sym _ m).
    destruct (N.eqb_spec m (N.of_nat (length l))); cbn [bind andb]; [now apply IH|].
    now destruct (forallb _ _). }
  intros H. destruct (N.eqb_spec m 0) as [->|Hm]; [|now apply H0].
  destruct H as [|p l ps ls [Hr Hs] H]; [reflexivity|].
  cbn [init_vectors forallb]. unfold check_vector_size. rewrite (size_len _ _ Hs).
  destruct (Nat.eqb_spec (length l) 0) as [E|E]; cbn [negb andb bind N.eqb]; [reflexivity|].
  rewrite (H0 ps ls _ H) by lia. destruct (forallb (fun l0 => negb _) ls); [|reflexivity].
  assert (forall t : list (list (option V)), forallb (fun x => N.of_nat (length x) =? N.of_nat (length l))%N t =
          forallb (fun x => length x =? length l) t) as ->; [|reflexivity].
  induction t as [|x t IH]; cbn; [reflexivity|]. rewrite IH. f_equal.
  destruct (N.eqb_spec (N.of_nat (length x)) (N.of_nat (length l))), (Nat.eqb_spec (length x) (length l)); auto; lia.
Qed.
End M.

(** *** Ranges *)

Lemma check_range_spec n s z : (s + z < 2 ^ 64)%N ->
  check_range n s z = if fits n s z then Ok tt else Throw E_invalid_arg.
Proof.
  intros H. unfold check_range, fits. rewrite wadd_small by exact H.
  destruct (N.leb_spec n s), (N.ltb_spec s n); try lia; cbn [andb]; [reflexivity|].
  destruct (N.eqb_spec z 0), (N.ltb_spec 0 z); try lia; cbn [andb]; [reflexivity|].
  destruct (N.ltb_spec n (s + z)), (N.leb_spec (s + z) n); try lia; reflexivity.
Qed.

Definition ranges (c : coll) := ((cstart c, csize c), (estart c, esize c)).

Lemma call_spec r c n m : no_wrap r -> N.of_nat (length (vecs c)) = n -> msize c = m ->
  ranges (call r c) = in_force n m r (ranges c) /\ vecs (call r c) = vecs c /\ msize (call r c) = m.
Proof.
  intros H <- <-. destruct r as [s z|s z]; cbn in H; unfold call, set_collection_range, set_element_range;
    rewrite check_range_spec by exact H; unfold in_force, ranges;
    destruct (fits _ s z); cbn; auto.
Qed.

Lemma calls_spec rs c n m : Forall no_wrap rs -> N.of_nat (length (vecs c)) = n -> msize c = m ->
  let c' := fold_left (fun c r => call r c) rs c in
  ranges c' = fold_left (fun x r => in_force n m r x) rs (ranges c) /\ vecs c' = vecs c /\ msize c' = m.
Proof.
  intros H. revert c. induction H as [|r rs Hr H IH]; intros c Hn Hm; [auto|].
  cbn [fold_left]. destruct (call_spec r c n m Hr Hn Hm) as (E1 & E2 & E3).
  destruct (IH (call r c)) as (F1 & F2 & F3); [congruence|congruence|].
  rewrite F1, F2, F3, E1. auto.
Qed.

Definition inside (n m : N) (x : (N * N) * (N * N)) : Prop :=
  (0 < snd (fst x) /\ fst (fst x) + snd (fst x) <= n /\
   0 < snd (snd x) /\ fst (snd x) + snd (snd x) <= m)%N.

Lemma force_inside rs n m x : inside n m x -> inside n m (fold_left (fun x r => in_force n m r x) rs x).
Proof.
  revert x. induction rs as [|r rs IH]; intros x H; [exact H|]. cbn [fold_left]. apply IH.
  destruct H as (H1 & H2 & H3 & H4).
  destruct r as [s z|s z]; unfold in_force.
  - destruct (fits n s z) eqn:E; [|unfold inside; auto].
    unfold fits in E. rewrite !andb_true_iff, !N.ltb_lt, N.leb_le in E. unfold inside. cbn. lia.
  - destruct (fits m s z) eqn:E; [|unfold inside; auto].
    unfold fits in E. rewrite !andb_true_iff, !N.ltb_lt, N.leb_le in E. unfold inside. cbn. lia.
Qed.

(** ** C58: theorems *)

(** A collection of containers that all show sequences of length [L] > 0, after any
    calls that set ranges, walks exactly over the entries of the ranges in force, by
    position and then by container, once each and in order.  [mem0] are the
    containers at the time of construction, [mem] those at the time of the walk: they
    may have been changed in between as long as their lengths are the same.  Missing
    for the full statement: ranges with start + size >= 2^64
    (C58_range_wrap_refuted, C58_collection_wrap_refuted). *)
Theorem C58_walk_partial : forall mem0 mem ps ls0 ls L rs,
  Forall2 (holds mem0) ps ls0 -> Forall2 (holds mem) ps ls ->
  (forall l, In l ls0 -> length l = L) -> (forall l, In l ls -> length l = L) ->
  ps <> [] -> 0 < L -> (N.of_nat L < 2 ^ 64)%N -> (N.of_nat (length ps) < 2 ^ 60)%N ->
  Forall no_wrap rs ->
  exists c, make mem0 ps = Ok c /\ csize_of c = N.of_nat L /\
    exists c0 cn e0 en,
      fold_left (fun x r => in_force (N.of_nat (length ps)) (N.of_nat L) r x) rs
        ((0, N.of_nat (length ps)), (0, N.of_nat L))%N =
      ((N.of_nat c0, N.of_nat cn), (N.of_nat e0, N.of_nat en)) /\
      forall fuel, cn * en < fuel ->
        traverse mem fuel (fold_left (fun c r => call r c) rs c) = Ok (Some (visits ls c0 cn e0 en)).
Proof using Hdup.
  intros mem0 mem ps ls0 ls L rs F0 F H0 H Hne HL HL2 Hn Hrs.
  assert (exists c, make mem0 ps = Ok c /\ vecs c = ps /\ msize c = N.of_nat L /\
            ranges c = ((0, N.of_nat (length ps)), (0, N.of_nat L))%N) as (c & E1 & E2 & E3 & E4).
  { unfold make. rewrite (init_spec mem0 ps ls0 0 F0). cbn [N.eqb].
    replace (forallb (fun l => negb (length l =? 0)) ls0) with true.
    2: { symmetry. apply forallb_forall. intros l Hl. rewrite (H0 l Hl). destruct (Nat.eqb_spec L 0); [lia|reflexivity]. }
    destruct F0 as [|p l ps ls0 Hp F0]; [congruence|].
    replace (forallb (fun x => length x =? length l) ls0) with true.
    2: { symmetry. apply forallb_forall. intros x Hx. rewrite (H0 l), (H0 x); [apply Nat.eqb_refl|cbn; auto|cbn; auto]. }
    cbn [bind]. eexists. split; [reflexivity|]. unfold ranges. cbn [vecs msize cstart csize estart esize].
    rewrite (H0 l) by (cbn; auto). auto. }
  exists c. split; [exact E1|]. split; [exact E3|].
  destruct (calls_spec rs c (N.of_nat (length ps)) (N.of_nat L) Hrs ltac:(congruence) E3) as (R1 & R2 & R3).
  rewrite E4 in R1. rewrite E2 in R2.
  set (c' := fold_left (fun c r => call r c) rs c) in *.
  assert (inside (N.of_nat (length ps)) (N.of_nat L) (ranges c')) as Hin.
  { rewrite R1. apply force_inside. unfold inside. cbn. destruct ps; [congruence|]. cbn [length]. lia. }
  destruct Hin as (I1 & I2 & I3 & I4). unfold ranges in I1, I2, I3, I4. cbn [fst snd] in *.
  exists (N.to_nat (cstart c')), (N.to_nat (csize c')), (N.to_nat (estart c')), (N.to_nat (esize c')).
  rewrite !Nnat.N2Nat.id. split; [rewrite <- R1; reflexivity|].
  intros fuel Hf. apply (traverse_spec mem c' ps ls L); auto; try lia; now rewrite Nnat.N2Nat.id.
Qed.

(** What [visits] contains: exactly the entries of the ranges, each once. *)
Theorem C58_each_once : forall (ls : list (list (option V))) c n p m,
  length (visits ls c n p m) = n * m /\
  forall k, k < n * m ->
    nth_error (visits ls c n p m) k =
    Some (N.of_nat (c + k mod n), N.of_nat (p + k / n), nth (p + k / n) (nth (c + k mod n) ls []) None).
Proof.
  intros ls c n p m. unfold visits. revert p. induction m as [|m IH]; intros p.
  { rewrite Nat.mul_0_r. split; [reflexivity|]. intros k Hk. lia. }
  cbn [seq flat_map]. destruct (IH (S p)) as [IH1 IH2].
  rewrite app_length, map_length, seq_length, IH1. split; [lia|].
  intros k Hk. assert (n <> 0) as Hn0 by (intros ->; lia).
  destruct (Nat.lt_ge_cases k n) as [L|L].
  - rewrite nth_error_app1 by now rewrite map_length, seq_length.
    rewrite (Nat.mod_small k n), (Nat.div_small k n), Nat.add_0_r by lia.
    rewrite nth_error_map. rewrite (nth_error_nth' (seq c n) 0) by now rewrite seq_length.
    rewrite seq_nth by lia. reflexivity.
  - rewrite nth_error_app2 by now rewrite map_length, seq_length. rewrite map_length, seq_length.
    rewrite IH2 by lia.
    replace k with (k - n + 1 * n) at 5 6 7 8 by lia.
    rewrite Nat.mod_add, Nat.div_add by lia.
    replace (p + ((k - n) / n + 1)) with (S p + (k - n) / n) by lia. reflexivity.
Qed.

(** The constructor accepts exactly non-empty containers of one length. *)
Theorem C58_make_rejects : forall mem ps ls,
  Forall2 (holds mem) ps ls -> ps <> [] ->
  (exists c, make mem ps = Ok c) /\ (exists L, 0 < L /\ forall l, In l ls -> length l = L) \/
  make mem ps = Throw E_invalid_arg /\ ~ (exists L, 0 < L /\ forall l, In l ls -> length l = L).
Proof.
  intros mem ps ls F Hne. unfold make. rewrite (init_spec mem ps ls 0 F). cbn [N.eqb].
  destruct F as [|p l ps ls Hp F]; [congruence|].
  destruct (forallb (fun l => negb (length l =? 0)) (l :: ls)) eqn:E1.
  - rewrite forallb_forall in E1.
    destruct (forallb (fun x => length x =? length l) ls) eqn:E2.
    + left. split; [eexists; reflexivity|]. exists (length l). split.
      * specialize (E1 l (or_introl eq_refl)). destruct (Nat.eqb_spec (length l) 0); [discriminate|lia].
      * rewrite forallb_forall in E2. intros x [<-|Hx]; [reflexivity|]. now apply Nat.eqb_eq, E2.
    + right. split; [reflexivity|]. intros (L & _ & HL).
      assert (forallb (fun x => length x =? length l) ls = true); [|congruence].
      apply forallb_forall. intros x Hx. rewrite (HL l), (HL x); [apply Nat.eqb_refl|cbn; auto|cbn; auto].
  - right. split; [reflexivity|]. intros (L & H0 & HL).
    assert (forallb (fun l => negb (length l =? 0)) (l :: ls) = true); [|congruence].
    apply forallb_forall. intros x Hx. rewrite (HL x Hx). destruct (Nat.eqb_spec L 0); [lia|reflexivity].
Qed.

(** A range call is accepted exactly when the range is a non-empty part of the
    collection, otherwise it throws and nothing changes.  Missing for the full
    statement: wrap-around of start + size. *)
Theorem C58_range_rejects_partial : forall (c : coll) s z,
  (s + z < 2 ^ 64)%N ->
  set_collection_range s z c =
    (if fits (N.of_nat (length (vecs c))) s z
     then Ok (CL (vecs c) (msize c) (ident c) (estart c) (esize c) s z) else Throw E_invalid_arg) /\
  set_element_range s z c =
    (if fits (csize_of c) s z
     then Ok (CL (vecs c) (msize c) (ident c) s z (cstart c) (csize c)) else Throw E_invalid_arg).
Proof.
  intros c s z H. unfold set_collection_range, set_element_range, csize_of.
  rewrite !check_range_spec by exact H.
  destruct (fits _ s z), (fits (msize c) s z); auto.
Qed.

(** swap exchanges what two collections walk over. *)
Theorem C58_swap : forall (a b : coll) mem fuel,
  csize_of (fst (swap a b)) = csize_of b /\ csize_of (snd (swap a b)) = csize_of a /\
  traverse (V := V) mem fuel (fst (swap a b)) = traverse mem fuel b /\
  traverse (V := V) mem fuel (snd (swap a b)) = traverse mem fuel a.
Proof. intros [] [] mem fuel. repeat split. Qed.

(** A default-constructed collection walks over nothing. *)
Theorem C58_default : forall (mem : N -> @st V) fuel, 0 < fuel -> traverse mem fuel coll0 = Ok (Some []).
Proof. intros mem [|fuel] H; [lia|reflexivity]. Qed.
End P.

(** ** Concrete cases *)

(** Three containers of length 8 at addresses 100, 104 and 200: the one of MtvProps,
    an empty one and a filled one. *)
Definition xmem (p : N) : @st xv :=
  if (p =? 100)%N then s2 else if (p =? 104)%N then mk_size 1 8 else mk_fill xcat 2 8 (2, 77).
Definition xps : list N := [100; 104; 200]%N.
Definition xls : list (list (option xv)) := [l2; repeat None 8; repeat (Some (2, 77)) 8].
Lemma xholds : Forall2 (holds xcat xman xdup xcopy xmem) xps xls.
Proof.
  apply Forall2_cons; [exact s2_reach|]. apply Forall2_cons.
  { split; [apply (r_size _ _ _ _ _ 1 8)|apply (size_shows 1 8)]. }
  apply Forall2_cons; [|apply Forall2_nil].
  split; [apply (r_fill _ _ _ _ _ 2 8 (2, 77)); reflexivity|]. split; [reflexivity|]. intros i x Hi.
  do 8 (destruct i as [|i]; [injection Hi as <-; reflexivity|]). destruct i; discriminate.
Qed.
Lemma xlen : forall l, In l xls -> length l = 8.
Proof. intros l [<-|[<-|[<-|[]]]]; reflexivity. Qed.

(** The hypotheses of C58_walk_partial hold, with one rejected call; vectors 1..2 and
    positions 5..6 are in force. *)
Definition xcalls : list rcall := [RElem 5 2; RColl 1 2; RColl 2 2; RElem 8 1]%N.
Example C58_case :
  Forall2 (holds xcat xman xdup xcopy xmem) xps xls /\ Forall no_wrap xcalls /\
  exists c, make xmem xps = Ok c /\ csize_of c = 8%N /\
    traverse xmem 5 (fold_left (fun c r => call r c) xcalls c) =
    Ok (Some [(1, 5, None); (2, 5, Some (2%nat, 77%nat)); (1, 6, None); (2, 6, Some (2%nat, 77%nat))])%N /\
    visits xls 0 1 1 2 = [(0, 1, Some (1%nat, 11%nat)); (0, 2, Some (2%nat, 20%nat))]%N.
Proof.
  split; [exact xholds|]. split; [repeat (apply Forall_cons; [reflexivity|]); apply Forall_nil|].
  eexists. split; [vm_compute; reflexivity|]. vm_compute. auto.
Qed.

Example C58_rejects_case :
  make (fun p => if (p =? 100)%N then s2 else mk_size 1 7) [100; 104]%N = Throw E_invalid_arg /\
  make (fun p => if (p =? 100)%N then s2 else mk_size 1 0) [100; 104]%N = Throw E_invalid_arg.
Proof. split; vm_compute; reflexivity. Qed.

(** Finding K1: the sum start + size wraps.  set_element_range(1, 2^64 - 1) on
    containers of length 8 is accepted, and walking over the result does not stop at
    the end of the containers: it dereferences an end iterator. *)
Theorem C58_range_wrap_refuted :
  exists c c' s z, make xmem xps = Ok c /\ fits (csize_of c) s z = false /\
    set_element_range s z c = Ok c' /\ traverse xmem 100 c' = Undef.
Proof.
  eexists. eexists. exists 1%N, (2 ^ 64 - 1)%N. split; [vm_compute; reflexivity|].
  split; [vm_compute; reflexivity|]. split; vm_compute; reflexivity.
Qed.

(** The same for set_collection_range: accepted, then begin() throws
    std::length_error. *)
Theorem C58_collection_wrap_refuted :
  exists c c' s z, make xmem xps = Ok c /\ fits (N.of_nat (length (vecs c))) s z = false /\
    set_collection_range s z c = Ok c' /\ begin_ xmem c' = Throw E_general.
Proof.
  eexists. eexists. exists 1%N, (2 ^ 64 - 1)%N. split; [vm_compute; reflexivity|].
  split; [vm_compute; reflexivity|]. split; vm_compute; reflexivity.
Qed.

(** Finding K2: constructing a collection from an empty range is undefined. *)
Theorem C58_no_vectors_refuted : forall mem : N -> @st xv, make mem [] = Undef.
Proof. reflexivity. Qed.

(** One query for all the theorems of this file. *)
Definition CollProps_theorems :=
  (@C58_walk_partial, @C58_each_once, @C58_make_rejects, @C58_range_rejects_partial,
   @C58_swap, @C58_default, @C58_range_wrap_refuted, @C58_collection_wrap_refuted,
   @C58_no_vectors_refuted).
Print Assumptions CollProps_theorems.
