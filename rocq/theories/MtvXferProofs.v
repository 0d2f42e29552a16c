(** multi_type_vector: transfer. *)
From Coq Require Import List ZArith Lia Bool.
From Verif Require Import Base MtvModel MtvXfer MtvProofs MtvTac MtvEmpty MtvWrap
  MtvXferMerge MtvXferHole MtvXferSteps.
Import ListNotations.

Section P.
Set Default Proof Using "Type".
Context {V : Type}.
Variable cat : V -> nat.
Variable managed : nat -> bool.
Notation eblk := (@eblk V).
Notation blk := (@blk V).
Notation st := (@st V).
Notation oown := (oown cat managed).

(** Rows replaced, the old ones freed. *)
Definition rstep (s s' : st) (a len : nat) (x : list (option V)) (P : Prop) : Prop :=
  good cat s' /\ flat s' = splice a len x (flat s) /\ (canon s -> P -> canon s') /\ tag s' = tag s /\
  (forall p, cnt p (freed s') = cnt p (freed s) + cnt p (flat_map oown (firstn len (skipn a (flat s))))) /\
  events s s'.

Lemma splice_splice {A} a len (x y l : list A) :
  length y = len -> a + len <= length l -> splice a len x (splice a len y l) = splice a len x l.
Proof.
  intros Hy Hl. unfold splice.
  assert (length (firstn a l) = a) as La by (rewrite firstn_length; lia).
  f_equal; [|f_equal].
  - rewrite firstn_app, firstn_firstn, La. replace (Nat.min a a) with a by lia.
    replace (a - a) with 0 by lia. cbn [firstn]. apply app_nil_r.
  - rewrite app_assoc. replace (a + len) with (0 + length (firstn a l ++ y)) at 1 by (rewrite app_length; lia).
    now rewrite skipn_off.
Qed.

Lemma skip2 {A} (l : list A) : forall i j, skipn i (skipn j l) = skipn (j + i) l.
Proof. induction l as [|x l IH]; intros i [|j]; cbn [skipn Nat.add]; auto. now destruct i. Qed.

Lemma cnt_oown_splice p a len (l : list (option V)) x :
  a + len <= length l ->
  cnt p (flat_map oown (splice a len x l)) + cnt p (flat_map oown (firstn len (skipn a l)))
  = cnt p (flat_map oown l) + cnt p (flat_map oown x).
Proof.
  intros H. unfold splice. rewrite !flat_map_app, !cnt_app.
  rewrite <- (firstn_skipn a l) at 4. rewrite <- (firstn_skipn len (skipn a l)) at 2.
  rewrite skip2, !flat_map_app, !cnt_app. lia.
Qed.

Lemma splice_same {A} a n (l : list A) : splice a n (firstn n (skipn a l)) l = l.
Proof. unfold splice. rewrite <- skip2, firstn_skipn. apply firstn_skipn. Qed.

Lemma mo_flat (s : st) : good cat s -> mo managed (bl s) = flat_map oown (flat s).
Proof. intros (W & _). symmetry. exact (oown_flatl cat managed 0 _ W). Qed.

Lemma oown_none n : flat_map oown (repeat None n) = [].
Proof. induction n; cbn; auto. Qed.

Lemma xstep_imp (s s' : st) a len x (P P' : Prop) : (canon s -> P' -> P) -> xstep cat s s' a len x P -> xstep cat s s' a len x P'.
Proof. intros HP (A1 & A2 & A3 & A4 & A5 & A6). unfold xstep, rstep; repeat match goal with |- _ /\ _ => split end; auto. Qed.

Lemma len_splice {A} a n (x l : list A) : length x = n -> a + n <= length l -> length (splice a n x l) = length l.
Proof. intros H1 H2. unfold splice. rewrite !app_length, firstn_length, skipn_length. lia. Qed.

Lemma rstep_of (d d1 d2 : st) dp len x P :
  good cat d -> dp + len <= cs d ->
  step cat managed d d1 (splice dp len (repeat None len) (flat d)) [] [] ->
  xstep cat d1 d2 dp len x P -> rstep d d2 dp len x P.
Proof.
  intros Hg Hl ((B1 & B2 & B3 & B4 & B5) & B6) (A1 & A2 & A3 & A4 & A5 & A6).
  rewrite <- (len_flat cat d Hg) in Hl.
  unfold xstep, rstep; repeat match goal with |- _ /\ _ => split end; auto.
  - rewrite A2, B2. apply splice_splice; [apply repeat_length|exact Hl].
  - congruence.
  - intros p. rewrite A5. specialize (B5 p). cbn [cnt] in B5.
    rewrite (mo_flat d1 B1), (mo_flat d Hg), B2 in B5.
    pose proof (cnt_oown_splice p dp len (flat d) (repeat None len) Hl) as E. rewrite oown_none in E. cbn [cnt] in E. lia.
  - eapply events_trans; eauto.
Qed.

Lemma xstep_of_step (s s' : st) a len out :
  good cat s -> a + len <= cs s ->
  step cat managed s s' (splice a len (repeat None len) (flat s)) [] out ->
  out = flat_map oown (firstn len (skipn a (flat s))) ->
  xstep cat s s' a len (repeat None len) True.
Proof.
  intros Hg Hl ((B1 & B2 & B3 & B4 & B5) & B6) ->.
  rewrite <- (len_flat cat s Hg) in Hl.
  unfold xstep, rstep; repeat match goal with |- _ /\ _ => split end; auto.
  intros p. specialize (B5 p). cbn [cnt] in B5.
  rewrite (mo_flat s' B1), (mo_flat s Hg), B2 in B5.
  pose proof (cnt_oown_splice p a len (flat s) (repeat None len) Hl) as E. rewrite oown_none in E. cbn [cnt] in E. lia.
Qed.

(** What transfer does to source and destination. *)
Definition moved (s d : st) (a len dp : nat) (x : st * st * nat) : Prop :=
  xstep cat s (fst (fst x)) a len (repeat None len) True /\ at_pos (fst (fst x)) (snd x) a /\
  rstep d (snd (fst x)) dp len (firstn len (skipn a (flat s))) (canon s).

(** The emptied destination. *)
Lemma clear_spec (d : st) dp len :
  good cat d -> 0 < len -> dp + len <= cs d ->
  wp (set_empty managed None dp (dp + len - 1) d)
     (fun x => exists q p z t, bl (fst x) = q ++ BK p z None :: t /\ snd x = length q /\ good cat (fst x) /\
        p <= dp /\ dp + len <= tot q + z /\
        step cat managed d (fst x) (splice dp len (repeat None len) (flat d)) [] []).
Proof.
  intros Hg Hl Hd. eapply wp_mono; [apply set_empty_spec with (cat := cat); auto; lia|]. cbn beta.
  intros [d1 k] [S1 A]. cbn [fst snd] in *.
  replace (S (dp + len - 1 - dp)) with len in S1 by lia.
  pose proof S1 as ((G & F & _) & _).
  assert (length (flat d1) = length (flat d)) as Lf.
  { rewrite F. apply len_splice; [apply repeat_length|]. rewrite (len_flat cat); auto. }
  assert (cs d1 = cs d) as C by (rewrite !(len_flat cat) in Lf; auto).
  destruct (empty_block cat d1 k dp len) as (q & p & z & t & E & Ek & Ep & H1 & H2); auto; [lia| |].
  - intros i Hi. rewrite F. unfold splice. rewrite nth_error_app2 by (rewrite firstn_length; lia).
    rewrite firstn_length, (len_flat cat) by auto. replace (dp + i - Nat.min dp (cs d)) with i by lia.
    rewrite nth_error_app1 by (rewrite repeat_length; lia).
    rewrite (nth_error_nth' _ None) by (rewrite repeat_length; lia). f_equal. apply nth_repeat.
  - exists q, p, z, t. unfold xstep, rstep; repeat match goal with |- _ /\ _ => split end; auto. lia.
Qed.

Lemma one_block (p k : nat) (d : option eblk) : 0 < k -> okd cat k d -> wfl cat p [BK p k d].
Proof. intros H1 H2. cbn [wfl bp bs bd]. repeat split; auto. Qed.

Lemma slice_mid (q : list blk) b t a n :
  wfl cat 0 (q ++ b :: t) -> tot q <= a -> a + n <= tot q + bs b ->
  firstn n (skipn a (flatl (q ++ b :: t))) = firstn n (skipn (a - tot q) (flatb b)).
Proof.
  clear managed. intros W H1 H2. apply wfl_app in W as [W1 (_ & W2 & _)].
  pose proof (flatl_length cat 0 q W1) as L1. pose proof (flatb_length cat b W2) as L2.
  rewrite flatl_app, flatl_cons, slice_in by lia. now rewrite L1.
Qed.

Lemma set_data_at (q : list blk) b t D c n g a r f :
  set_data (length q) D (ST (q ++ b :: t) c n g a r f) = Ok (ST (q ++ BK (bp b) (bs b) D :: t) c n g a r f).
Proof. unfold set_data, bat. cbn [bl]. rewrite nth_error_app_mid. cbn [deref bind]. unfold with_bl. cbn [bl cs nid tag acq rel freed]. now rewrite set_nth_app. Qed.

Lemma put_one (s0 s : st) q z t a len D n1 :
  hole cat s0 s q z t a len -> 0 < len -> okd cat len D ->
  wp (merge_adj managed (length q)
        (ST (q ++ BK a len D :: t) (cs s) n1 (tag s) (acq s ++ refb (BK a len D)) (rel s) (freed s)))
     (fun x => xstep cat s0 (fst x) a len (flatb (BK a len D)) True /\
               at_pos (fst x) (if snd x =? 0 then length q else pred (length q)) a).
Proof.
  intros H Hl HD.
  assert (wfl cat a [BK a len D]) as W1 by now apply one_block.
  pose proof (hole_wfl cat _ _ _ _ _ _ _ _ H W1 ltac:(cbn; lia)) as [W T].
  eapply wp_mono; [apply (merge_one cat managed q (BK a len D) t); [exact W|symmetry; exact T]|]. cbn beta.
  intros [s2 o] (M & A & C). cbn [fst snd bp] in *. split; [|exact A].
  replace (flatb (BK a len D)) with (flatl [BK a len D]) by (cbn; apply app_nil_r).
  apply xstep_imp with (P := chain Rne (map bcat [BK a len D])); [intros; exact Logic.I|].
  eapply (fill_spec cat managed); [exact H|..|exact M|]; try reflexivity; auto.
  - intros p. cbn [acq]. rewrite cnt_app. f_equal. cbn [refs flat_map]. now rewrite app_nil_r.
  - cbn. lia.
Qed.

Lemma transfer_single_spec q b t c n g ac rl fr (d : st) a e dp :
  let s := ST (q ++ b :: t) c n g ac rl fr in
  good cat s -> good cat d -> tot q <= a -> a <= e -> e < tot q + bs b -> dp + (e - a + 1) <= cs d ->
  wp (transfer_single managed a e (length q) dp s d) (moved s d a (e - a + 1) dp).
Proof.
  intros s Hs Hd H1 H2 H3 H4. set (len := e - a + 1).
  assert (0 < len) as Hl by (unfold len; lia).
  assert (a + len <= cs s) as Ha.
  { pose proof Hs as (W & C & _). unfold s in *. cbn [bl cs] in *. rewrite tot_app in C. cbn [tot] in C. unfold len. lia. }
  assert (bp b = tot q) as Eb by (destruct Hs as (W & _); apply (wfl_bp cat) in W; exact W).
  assert (okb cat b) as Ob by (destruct Hs as (W & _); apply wfl_app in W as [_ W2]; cbn [wfl] in W2; tauto).
  assert (firstn len (skipn a (flat s)) = firstn len (skipn (a - tot q) (flatb b))) as Sl.
  { apply slice_mid; [apply Hs|lia|unfold len; lia]. }
  unfold transfer_single. fold len.
  unfold data_at, pos_at, size_at, bat, s. cbn [bl]. rewrite nth_error_app_mid. cbn [deref bind]. fold s.
  apply wp_bind. eapply wp_mono; [apply clear_spec; auto|]. cbn beta.
  intros [d1 k] (qd & p & z & td & E & Ek & G1 & P1 & P2 & St). cbn [fst snd] in *.
  destruct b as [pb zb [eb|]]; cbn [bd bp bs] in *; subst pb.
  2: { (* nothing but empty rows *)
    cbn [wp]. unfold moved. cbn [fst snd].
    assert (firstn len (skipn a (flat s)) = repeat None len) as Sn.
    { rewrite Sl. unfold flatb. cbn [bd bs]. rewrite skipn_rep, firstn_rep. f_equal. unfold len. lia. }
    assert (splice a len (repeat None len) (flat s) = flat s) as Es.
    { rewrite <- Sn. apply splice_same. }
    split; [|split].
    - unfold xstep, rstep; repeat match goal with |- _ /\ _ => split end; auto. intros p'. lia.
    - eexists. split; [unfold s; cbn [bl]; apply nth_error_app_mid|]. cbn [bp bs]. lia.
    - rewrite Sn. apply (rstep_of d d1 d1); auto. 
      assert (flat d1 = splice dp len (repeat None len) (flat d)) as Fd by (destruct St as ((_ & F & _) & _); exact F).
      unfold xstep, rstep; repeat match goal with |- _ /\ _ => split end; auto; [|intros p'; lia].
      rewrite Fd. symmetry. apply splice_splice; [apply repeat_length|]. rewrite (len_flat cat); auto. }
  destruct d1 as [ld cd nd gd ad rd fd]. cbn [bl] in E. subst ld k.
  apply wp_bind. eapply wp_mono; [apply (carve_spec cat); auto|]. cbn beta.
  intros [d2 k] (q' & t' & Ek & Ho). cbn [fst snd] in *. subst k.
  destruct d2 as [l2 c2 n2 g2 a2 r2 f2]. pose proof Ho as (E2 & _). cbn [bl app] in E2. subst l2.
  set (Fl := firstn len (skipn a (flat s))).
  assert (forall x : st, xstep cat (ST (qd ++ BK p z None :: td) cd nd gd ad rd fd) x dp len Fl True ->
    rstep d x dp len Fl (canon s)) as Dst.
  { intros x Hx. eapply rstep_of; eauto. eapply xstep_imp; [|exact Hx]. auto. }
  destruct eb as [ie ce le]. destruct Ob as [Hz [Hle Hall]]. cbn [bs bd ev ecat] in Hz, Hle, Hall.
  destruct ((a - tot q =? 0) && (len =? zb)) eqn:Ew.
  - apply andb_true_iff in Ew as [Ew1 Ew2]. apply Nat.eqb_eq in Ew1, Ew2.
    rewrite set_data_at. cbn [bind]. unfold s at 1, ev_rel, ev_acq.
    cbn [bl cs nid tag acq rel freed bp bs bd eid ecat]. rewrite set_data_at. cbn [bind bp bs].
    apply wp_bind. eapply wp_mono; [apply (put_one _ _ _ _ _ _ _ (Some (EB ie ce le)) n2 Ho); auto|].
    { split; [cbn [ev]; lia|exact Hall]. }
    cbn beta. intros [d3 o3] [X3 _]. cbn [fst] in X3.
    assert (a = tot q) as -> by lia.
    assert (hole cat s (ST (q ++ BK (tot q) len None :: t) c n g ac (rl ++ [(ie, ce)]) fr) q [BK (tot q) len None] t (tot q) len) as Hh.
    { apply mk_hole; auto.
      - unfold s. cbn [bl]. apply lcut_whole. apply Hs.
      - unfold s. cbn [bl].
        replace (q ++ BK (tot q) zb (Some (EB ie ce le)) :: t) with ((q ++ [BK (tot q) zb (Some (EB ie ce le))]) ++ t) by (rewrite <- app_assoc; reflexivity).
        replace (tot q + len) with (tot (q ++ [BK (tot q) zb (Some (EB ie ce le))])) by (rewrite tot_app; cbn [tot bs]; lia).
        apply rcut_whole. rewrite <- app_assoc. apply Hs.
      - intros p'. unfold s. fin_cnt0. lia. }
    apply wp_bind. rewrite <- Ew2. eapply wp_mono.
    { pose proof (put_one _ _ _ _ _ _ _ None n Hh Hl Logic.I) as X. cbn [cs tag acq rel freed refb bd] in X.
      rewrite app_nil_r in X. exact X. }
    cbn beta. intros [s3 o4] [X4 A4]. cbn [fst snd] in X4, A4. cbn [wp]. unfold moved. cbn [fst snd].
    split; [exact X4|]. split; [exact A4|]. apply Dst.
    unfold Fl. rewrite Sl, Nat.sub_diag. cbn [skipn]. rewrite firstn_all2; [exact X3|].
    unfold flatb. cbn [bd ev]. rewrite map_length. lia.
  - cbn [fresh bl cs nid tag acq rel freed ecat].
    rewrite set_data_at. cbn [bind bp bs]. unfold on, edata, data_at, bat, ev_acq. cbn [bl cs nid tag acq rel freed eid ecat].
    rewrite nth_error_app_mid. cbn [deref bind bd].
    unfold e_assign_from at 1. cbn [ecat]. rewrite Nat.eqb_refl. unfold e_slice at 1. cbn [ev].
    destruct (Nat.leb_spec (a - tot q + len) (length le)) as [Lq|Lq]; [|unfold len in Lq; lia].
    cbn [bind]. rewrite set_data_at. cbn [bind bp bs with_ev eid ecat].
    apply wp_bind. eapply wp_mono.
    { apply (put_one _ _ _ _ _ _ _ (Some (EB (g2, n2) ce (firstn len (skipn (a - tot q) le)))) (S n2) Ho Hl).
      split; [cbn [ev]; rewrite firstn_length, skipn_length; lia|]. cbn [ev ecat]. apply all_cat_firstn, all_cat_skipn; exact Hall. }
    cbn beta. intros [d3 o3] [X3 _]. cbn [fst] in X3.
    apply wp_bind. eapply wp_mono; [apply (set_empty_single_spec cat managed q); auto|].
    cbn beta. intros [s3 i3] [S3 A3]. cbn [fst snd bs bp] in S3, A3. cbn [wp]. unfold moved. cbn [fst snd].
    split; [|split; [exact A3|]].
    + fold s in S3. replace (S (e - a)) with len in S3 by (unfold len; lia).
      eapply xstep_of_step; [exact Hs|exact Ha|exact S3|].
      rewrite (taken_flat cat managed) by (split; [exact Hz|split; [exact Hle|exact Hall]]). rewrite Sl. reflexivity.
    + apply Dst. unfold Fl. rewrite Sl. unfold flatb in *. cbn [bd ev] in *. rewrite skipn_map, firstn_map. exact X3.
Qed.

Lemma place_wfl (l : list blk) : forall p P, wfl cat P l -> wfl cat p (place p l).
Proof.
  clear managed. induction l as [|b l IH]; intros p P; cbn [place wfl]; [auto|].
  intros (_ & H & W). cbn [bp bs]. split; [reflexivity|]. split; [exact H|]. eapply IH; eauto.
Qed.
Lemma place_tot (l : list blk) : forall p, tot (place p l) = tot l.
Proof. clear managed. induction l as [|b l IH]; intros p; cbn [place tot bs]; auto. Qed.
Lemma place_flatl (l : list blk) : forall p, flatl (place p l) = flatl l.
Proof. clear managed. induction l as [|b l IH]; intros p; cbn [place]; rewrite ?flatl_cons; auto. now rewrite IH. Qed.
Lemma place_bcat (l : list blk) : forall p, map bcat (place p l) = map bcat l.
Proof. clear managed. induction l as [|b l IH]; intros p; cbn [place map]; auto. now rewrite IH. Qed.
Lemma place_refs (l : list blk) : forall p, refs (place p l) = refs l.
Proof. clear managed. induction l as [|b l IH]; intros p; cbn [place]; rewrite ?refs_cons; auto. now rewrite IH. Qed.
Lemma place_len (l : list blk) : forall p, length (place p l) = length l.
Proof. clear managed. induction l as [|b l IH]; intros p; cbn [place length]; auto. Qed.

Lemma zero_refb (b : blk) : zero b -> refb b = [].
Proof. clear managed. intros [_ H]. unfold refb. now rewrite H. Qed.
Lemma drained_zero (l : list blk) : Forall zero (map drained l).
Proof. clear managed. induction l; constructor; auto. split; reflexivity. Qed.
Lemma drained_refs (l : list blk) : refs (map drained l) = [].
Proof. clear managed. induction l as [|b l IH]; auto. Qed.

Lemma transfer_multi_spec q b1 m b2 t c n g ac rl fr (d : st) a e dp :
  let s := ST (q ++ b1 :: m ++ b2 :: t) c n g ac rl fr in
  good cat s -> good cat d -> tot q <= a -> a < tot q + bs b1 ->
  tot q + bs b1 + tot m <= e -> e < tot q + bs b1 + tot m + bs b2 -> dp + (e - a + 1) <= cs d ->
  wp (transfer_multi managed a e (length q) (S (length m + length q)) dp s d) (moved s d a (e - a + 1) dp).
Proof.
  intros s Hs Hd H1 H2 H3 H4 H5. set (len := e - a + 1).
  pose proof Hs as (W & Cs & Ch). unfold s in W, Cs, Ch. cbn [bl cs] in W, Cs, Ch.
  assert (bp b1 = tot q) as E1 by (apply (wfl_bp cat) in W; exact W).
  pose proof W as W'. apply wfl_app in W' as (Wq & Wb). cbn [wfl Nat.add] in Wb. destruct Wb as (_ & O1 & Wb).
  apply wfl_app in Wb as (Wm & Wb). pose proof Wb as Wb2. cbn [wfl] in Wb. destruct Wb as (E2 & O2 & Wt).
  assert (0 < len) as Hl by (unfold len; lia).
  unfold transfer_multi. fold len.
  unfold pos_at, bat. unfold s at 1 2. cbn [bl]. rewrite nth_error_app_mid. cbn [deref bind].
  assert (nth_error (q ++ b1 :: m ++ b2 :: t) (S (length m + length q)) = Some b2) as N2.
  { change (S (length m + length q)) with (S (length m) + length q). rewrite nth_off. cbn [nth_error]. apply nth_error_app_mid. }
  rewrite N2. cbn [deref bind]. clear N2.
  rewrite E1, E2.
  apply wp_bind. eapply wp_mono; [apply clear_spec; auto|]. cbn beta.
  intros [d1 k] (qd & p & z & td & E & Ek & G1 & P1 & P2 & St). cbn [fst snd] in *.
  destruct d1 as [ld cd nd gd ad rd fd]. cbn [bl] in E. subst ld k.
  replace (S (length m + length q) - length q + 1) with (S (S (length m))) by lia.
  apply wp_bind. eapply wp_mono; [apply (carve_n_spec cat); auto|]. cbn beta.
  intros [d2 k] (q' & Z & zl & t' & Ek & LZ & FZ & Fz & Ho). cbn [fst snd] in *. subst k.
  destruct d2 as [l2 c2 n2 g2 a2 r2 f2]. pose proof Ho as (E3 & _ & _ & _ & Wq' & Tq' & _). cbn [bl app] in E3. subst l2.
  rewrite <- app_assoc in *. cbn [app] in *.
  (* first block *)
  apply wp_bind. unfold s at 1. eapply wp_mono; [apply (xfer_first_spec cat q b1 (m ++ b2 :: t)); auto; lia|]. cbn beta.
  intros [[s1 d3] del1] (b1' & B1 & Es1 & Ed3 & Gs1 & Gd3 & PB1 & Cut1). cbn [fst snd] in *.
  destruct s1 as [l1 c1 n1 g1 a1 r1 f1]. cbn [bl] in Es1. subst l1.
  destruct d3 as [l3 c3 n3 g3 a3 r3 f3]. cbn [bl] in Ed3. subst l3.
  unfold next_pos at 1, bat. cbn [bl]. rewrite nth_error_app_mid. cbn [deref bind].
  pose proof PB1 as (pB1 & sB1 & oB1 & cB1 & fB1). rewrite Tq' in pB1.
  set (p1 := bp B1 + bs B1).
  (* the blocks in between *)
  replace (S (S (length m)) - 2) with (length m) by lia.
  replace (S (length q)) with (length (q ++ [b1'])) by apply last_length.
  replace (S (length q')) with (length (q' ++ [B1])) by apply last_length.
  replace (q ++ b1' :: m ++ b2 :: t) with ((q ++ [b1']) ++ m ++ b2 :: t) by (rewrite <- app_assoc; reflexivity).
  replace (q' ++ B1 :: Z ++ zl :: t') with ((q' ++ [B1]) ++ Z ++ zl :: t') by (rewrite <- app_assoc; reflexivity).
  rewrite xfer_mid_spec by auto. cbn [bind].
  (* the last block *)
  set (qs2 := (q ++ [b1']) ++ map drained m). set (qd2 := (q' ++ [B1]) ++ place p1 m).
  replace (length q' + S (S (length m)) - 1) with (length qd2)
    by (unfold qd2; rewrite !app_length, place_len; cbn [length]; lia).
  replace (S (length m + length q)) with (length qs2)
    by (unfold qs2; rewrite !app_length, map_length; cbn [length]; lia).
  replace ((q ++ [b1']) ++ map drained m ++ b2 :: t) with (qs2 ++ b2 :: t) by (unfold qs2; rewrite <- app_assoc; reflexivity).
  replace ((q' ++ [B1]) ++ place p1 m ++ zl :: t') with (qd2 ++ zl :: t') by (unfold qd2; rewrite <- app_assoc; reflexivity).
  assert (wfl cat 0 qd2) as Wqd2.
  { unfold qd2. rewrite !wfl_app, !tot_app. cbn [wfl tot Nat.add]. repeat split; auto; try apply oB1; try lia.
    eapply (wfl_cast cat p1); [eapply place_wfl; exact Wm|unfold p1; lia]. }
  assert (tot qd2 = dp + (bs b1 - (a - tot q)) + tot m) as Tqd2.
  { unfold qd2. rewrite !tot_app, place_tot. cbn [tot]. lia. }
  apply wp_bind. eapply wp_mono; [apply (xfer_last_spec cat qs2 b2 t); auto|].
  { rewrite E2. exact Wb2. } { lia. }
  cbn beta. intros [[s3 d4] del2] (b2' & B2 & Es3 & Ed4 & Gs3 & Gd4 & PB2 & Cut2). cbn [fst snd] in *.
  set (k2 := e - (tot q + bs b1 + tot m) + 1) in *. set (off := a - tot q) in *.
  pose proof PB2 as (pB2 & sB2 & oB2 & cB2 & fB2).
  pose proof (flatb_length cat b1 O1) as L1. pose proof (flatb_length cat b2 O2) as L2.
  destruct d4 as [l4 c4 n4 g4 a4 r4 f4]. cbn [bl] in Ed4. subst l4.
  set (B := B1 :: place p1 m ++ [B2]).
  assert (qd2 ++ B2 :: t' = q' ++ B1 :: place p1 m ++ B2 :: t') as EB
    by (unfold qd2; rewrite <- !app_assoc; reflexivity).
  assert (qd2 ++ [B2] = q' ++ B) as EB'
    by (unfold qd2, B; rewrite <- !app_assoc; reflexivity).
  assert (wfl cat dp B) as WB.
  { assert (wfl cat 0 (q' ++ B)) as X.
    { rewrite <- EB', wfl_app. split; [exact Wqd2|]. cbn [wfl Nat.add]. split; [exact pB2|]. split; [exact oB2|exact Logic.I]. }
    apply wfl_app in X as [_ X]. cbn [Nat.add] in X. rewrite Tq' in X. exact X. }
  assert (tot B = len) as TB.
  { unfold B. cbn [tot]. rewrite tot_app, place_tot. cbn [tot]. rewrite sB1, sB2. unfold off, k2, len. lia. }
  assert (map bcat B = map bcat (b1 :: m ++ [b2])) as CB.
  { unfold B. cbn [map]. rewrite !map_app, place_bcat. cbn [map]. rewrite cB1, cB2. reflexivity. }
  assert (flatl B = firstn len (skipn a (flat s))) as FB.
  { unfold B. rewrite flatl_cons, flatl_app, place_flatl, flatl_cons, flatl_nil, app_nil_r, fB1, fB2. cbn [skipn].
    unfold flat, s. cbn [bl]. rewrite flatl_app, flatl_cons, flatl_app, flatl_cons.
    pose proof (flatl_length cat _ _ Wq) as Lq. pose proof (flatl_length cat _ _ Wm) as Lm.
    replace a with (off + length (flatl q)) by (unfold off; lia). rewrite skipn_off.
    rewrite skipn_app. replace (off - length (flatb b1)) with 0 by (unfold off; lia). cbn [skipn].
    rewrite (firstn_all2 (skipn off (flatb b1))) by (rewrite skipn_length; lia).
    replace len with (k2 + length (skipn off (flatb b1) ++ flatl m))
      by (rewrite app_length, skipn_length; unfold k2, off, len; lia).
    rewrite (app_assoc (skipn off (flatb b1)) (flatl m) (flatb b2 ++ flatl t)), firstn_off, <- app_assoc. f_equal. f_equal.
    rewrite firstn_app. replace (k2 - length (flatb b2)) with 0 by (unfold k2; lia). cbn [firstn]. now rewrite app_nil_r. }
  assert (forall R, chain R (map bcat (q ++ b1 :: m ++ b2 :: t)) -> chain R (map bcat B)) as ChB.
  { intros R HR. rewrite CB. rewrite map_app in HR. apply chain_post in HR.
    rewrite !map_cons, !map_app, !map_cons in *. cbn [map].
    change (chain R ((bcat b1 :: map bcat m) ++ bcat b2 :: map bcat t)) in HR. rewrite chain_mid in HR. apply HR. }
  destruct Gd3 as (gc3 & gt3 & gf3 & gr3 & ga3). destruct Gd4 as (gc4 & gt4 & gf4 & gr4 & ga4).
  cbn [cs tag freed rel acq] in *.
  pose proof (hole_wfl cat _ _ _ _ _ _ _ _ Ho WB TB) as [WW TT]. cbn [cs] in TT.
  assert (q' ++ B ++ t' = q' ++ B1 :: place p1 m ++ B2 :: t') as EB3
    by (unfold B; cbn [app]; rewrite <- app_assoc; reflexivity).
  rewrite EB3 in WW, TT. rewrite EB.
  replace (length qd2) with (S (length (place p1 m) + length q')) by (unfold qd2; rewrite !app_length; cbn [length]; lia).
  apply wp_bind. eapply wp_mono; [apply (merge_run cat managed q' B1 (place p1 m) B2 t'); [exact WW|cbn [cs bl]; lia]|].
  cbn beta. intros [d5 o5]. cbn [fst]. intros X5. apply wp_bind. eapply wp_mono; [exact X5|]. clear X5. cbn beta.
  intros [d6 o6] [M6 R6]. cbn [fst] in M6, R6.
  assert (rstep d d6 dp len (firstn len (skipn a (flat s))) (canon s)) as Dst.
  { eapply rstep_of; [exact Hd|exact H5|exact St|].
    rewrite <- FB. apply xstep_imp with (P := chain Rne (map bcat B)).
    { intros _ Hc. apply ChB. exact Hc. }
    eapply (fill_spec cat managed); [exact Ho|..|exact M6|]; cbn [bl cs tag freed rel acq].
    - symmetry. exact EB3.
    - congruence.
    - congruence.
    - congruence.
    - congruence.
    - intros p'. rewrite ga4, cnt_app, ga3. unfold B. rewrite !refs_cons, refs_app, place_refs, refs_cons, !refs_nil, !app_nil_r, !cnt_app. lia.
    - exact WB.
    - exact TB.
    - apply ChB. exact Ch.
    - intros R HR C1 C2 C3. apply R6; auto. }
  (* the source *)
  destruct Gs1 as (hc1 & ht1 & hf1 & ha1 & hr1). destruct Gs3 as (hc3 & ht3 & hf3 & ha3 & hr3).
  cbn [cs tag freed rel acq] in *.
  assert (exists Q Z1 T Z2, q ++ [b1'] = Q ++ Z1 /\ b2' :: t = Z2 ++ T /\ Forall zero Z1 /\ Forall zero Z2 /\
     lcut cat (bl s) Q a /\ rcut cat (bl s) T (a + len) /\ length Q = del1 /\ length qs2 + length Z2 = S del2 /\
     (Z1 = [] -> bcat b1' = bcat b1 /\ Q = q ++ [b1']) /\ (Z2 = [] -> bcat b2' = bcat b2 /\ T = b2' :: t)) as
     (Q & Z1 & T & Z2 & EQ & ET & FZ1 & FZ2 & LC & RC & LQ & LZ2 & CZ1 & CZ2).
  { assert (exists Q Z1, q ++ [b1'] = Q ++ Z1 /\ Forall zero Z1 /\ lcut cat (bl s) Q a /\ length Q = del1 /\
       (Z1 = [] -> bcat b1' = bcat b1 /\ Q = q ++ [b1'])) as (Q & Z1 & X1 & X2 & X3 & X4 & X5).
    { destruct Cut1 as [(Eo & Hz & ->)|(Eo & (y1 & y2 & y3 & y4 & y5) & ->)].
      - exists q, [b1']. split; [reflexivity|]. split; [auto|]. split; [|split; [reflexivity|discriminate]].
        replace a with (tot q) by (unfold off in *; lia). apply lcut_whole. exact W.
      - exists (q ++ [b1']), []. split; [now rewrite app_nil_r|]. split; [auto|]. split; [|split; [apply last_length|auto]].
        apply (lcut_part cat _ b1 _ _ off); auto; unfold off in *; lia. }
    assert (exists T Z2, b2' :: t = Z2 ++ T /\ Forall zero Z2 /\ rcut cat (bl s) T (a + len) /\ length qs2 + length Z2 = S del2 /\
       (Z2 = [] -> bcat b2' = bcat b2 /\ T = b2' :: t)) as (T & Z2 & Y1 & Y2 & Y3 & Y4 & Y5).
    { assert (q ++ b1 :: m ++ b2 :: t = (q ++ b1 :: m) ++ b2 :: t) as Ea by (rewrite <- app_assoc; reflexivity).
      assert (tot (q ++ b1 :: m) = tot q + bs b1 + tot m) as Et by (rewrite tot_app; cbn [tot]; lia).
      assert (0 < length qs2) as Lp by (unfold qs2; rewrite !app_length; cbn [length]; lia).
      destruct Cut2 as [(Eo & Hz & ->)|(Eo & (y1 & y2 & y3 & y4 & y5) & ->)].
      - exists t, [b2']. split; [reflexivity|]. split; [auto|]. split; [|split; [cbn [length]; lia|discriminate]].
        unfold s. cbn [bl]. rewrite Ea.
        replace ((q ++ b1 :: m) ++ b2 :: t) with (((q ++ b1 :: m) ++ [b2]) ++ t) by (rewrite <- app_assoc; reflexivity).
        replace (a + len) with (tot ((q ++ b1 :: m) ++ [b2])) by (rewrite tot_app, Et; cbn [tot]; unfold k2, len in *; lia).
        apply rcut_whole. rewrite <- app_assoc. cbn [app]. rewrite <- Ea. exact W.
      - exists (b2' :: t), []. split; [reflexivity|]. split; [auto|]. split; [|split; [cbn [length]; lia|auto]].
        unfold s. cbn [bl]. rewrite Ea. rewrite Ea in W.
        apply (rcut_part cat _ b2 _ _ k2); auto; try (unfold k2, len in *; lia).
        rewrite y5. apply firstn_all2. rewrite skipn_length. lia. }
    exists Q, Z1, T, Z2. repeat match goal with |- _ /\ _ => split end; auto; apply X5 || apply Y5. }
  set (Zs := Z1 ++ map drained m ++ Z2).
  assert (bl s3 = Q ++ Zs ++ T) as Es3'.
  { rewrite Es3. unfold qs2, Zs. rewrite EQ, ET, <- !app_assoc. reflexivity. }
  assert (hole cat s s3 Q Zs T a len) as Hh.
  { apply mk_hole; auto; try (unfold s; cbn [cs tag freed]; congruence).
    intros p'. rewrite ha3, ha1. unfold s. cbn [bl acq rel].
    assert (forall L : list blk, Forall zero L -> refs L = []) as Zr.
    { intros L HL. induction HL as [|x L Hx HL IH]; [reflexivity|]. rewrite refs_cons, IH, zero_refb by auto. reflexivity. }
    assert (cnt p' (refs q) + cnt p' (refs [b1']) = cnt p' (refs Q)) as A1.
    { rewrite <- cnt_app, <- refs_app, EQ, refs_app, (Zr Z1 FZ1), app_nil_r. reflexivity. }
    assert (cnt p' (refs [b2']) + cnt p' (refs t) = cnt p' (refs T)) as A2.
    { rewrite <- cnt_app, <- refs_app. cbn [app]. rewrite ET, refs_app, (Zr Z2 FZ2). reflexivity. }
    specialize (hr1 p'). specialize (hr3 p'). rewrite cnt_app in hr3.
    rewrite refs_app, refs_cons, refs_app, refs_cons, !cnt_app.
    change (refs [b1]) with (refb b1 ++ []) in hr1. change (refs [b2]) with (refb b2 ++ []) in hr3.
    rewrite app_nil_r in hr1, hr3. lia. }
  assert (length qs2 = length Q + length Z1 + length m) as Lqs2.
  { unfold qs2. rewrite EQ, !app_length, map_length. lia. }
  assert (del2 = pred (length Q + length Zs)) as ->.
  { unfold Zs. rewrite !app_length, map_length. lia. }
  rewrite <- LQ.
  replace (S (length (place p1 m) + length q')) with (length qd2) by (unfold qd2; rewrite !app_length; cbn [length]; lia).
  apply wp_bind. eapply wp_mono; [apply (xfer_close_spec cat managed s s3 Q Zs T a len); auto|].
  - unfold Zs. rewrite !Forall_app. auto using drained_zero.
  - intros EZ. unfold Zs in EZ. apply app_eq_nil in EZ as [EZ1 EZ]. apply app_eq_nil in EZ as [EZm EZ2].
    destruct m as [|? ?]; [|discriminate]. destruct (CZ1 EZ1) as [C1 ->]. destruct (CZ2 EZ2) as [C2 ->].
    rewrite last_length. split; [reflexivity|]. split; [rewrite Lqs2, last_length, EZ1; cbn [length]; lia|].
    split; [discriminate|].
    assert (map bcat ((q ++ [b1']) ++ b2' :: t) = map bcat (q ++ b1 :: [] ++ b2 :: t)) as Em.
    { rewrite <- app_assoc, !map_app. cbn [app map]. now rewrite C1, C2. }
    rewrite Em. split; [exact Ch|]. intros Hc. exact Hc.
  - cbn beta. intros [s6 i6] [X6 A6]. cbn [fst snd] in X6, A6. cbn [wp]. unfold moved. cbn [fst snd]. auto.
Qed.

Lemma transfer_spec (s d : st) h a e dp :
  good cat s -> good cat d -> a <= e -> e < cs s -> dp + (e - a + 1) <= cs d ->
  wp (transfer managed h a e dp s d) (moved s d a (e - a + 1) dp).
Proof.
  intros Hs Hd H1 H2 H3. destruct s as [l c n g ac rl fr]. pose proof Hs as (W & C & _). cbn [bl cs] in *.
  unfold transfer, transfer_impl.
  destruct (find_two cat 0 l a e W) as [(q & b & t & -> & L1 & L2)|(q & b1 & m & b2 & t & -> & L1 & L2 & L3 & L4)]; try lia.
  - rewrite (locate_spec cat h q b t c n g ac rl fr a) by (auto; lia). cbn [bind].
    destruct (Nat.ltb_spec e a) as [X|_]; [lia|].
    pose proof (block_pos_spec cat q [] b t c n g ac rl fr e) as B. rewrite app_nil_r in B. cbn [bl] in B.
    rewrite B by (auto; lia). cbn [bind]. unfold nblk. cbn [bl].
    destruct (Nat.eqb_spec (length q) (length (q ++ b :: t))) as [X|_]; [rewrite app_length in X; cbn [length] in X; lia|].
    destruct (Nat.leb_spec (cs d) (dp + (e - a + 1) - 1)) as [X|_]; [lia|].
    rewrite Nat.eqb_refl. apply transfer_single_spec; auto; lia.
  - rewrite (locate_spec cat h q b1 (m ++ b2 :: t) c n g ac rl fr a) by (auto; lia). cbn [bind].
    destruct (Nat.ltb_spec e a) as [X|_]; [lia|].
    pose proof (block_pos_spec cat q (b1 :: m) b2 t c n g ac rl fr e) as B.
    rewrite <- app_assoc in B. cbn [app bl] in B.
    rewrite B by (auto; rewrite tot_app; cbn [tot]; lia). cbn [bind]. clear B. unfold nblk. cbn [bl].
    assert (length (q ++ b1 :: m) = S (length m + length q)) as -> by (rewrite app_length; cbn [length]; lia).
    destruct (Nat.eqb_spec (S (length m + length q)) (length (q ++ b1 :: m ++ b2 :: t))) as [X|_];
      [rewrite app_length in X; cbn [length] in X; rewrite app_length in X; cbn [length] in X; lia|].
    destruct (Nat.leb_spec (cs d) (dp + (e - a + 1) - 1)) as [X|_]; [lia|].
    destruct (Nat.eqb_spec (length q) (S (length m + length q))) as [X|_]; [lia|].
    apply transfer_multi_spec; auto; lia.
Qed.

Lemma transfer_out (s d : st) h a e dp :
  good cat s -> (h = None \/ 0 < nblk s) ->
  e < a \/ cs s <= e \/ cs d < dp + (e - a + 1) ->
  transfer managed h a e dp s d = Throw E_out_of_range.
Proof.
  intros Hs Hh H. unfold transfer.
  destruct (Nat.lt_ge_cases a (cs s)) as [La|La].
  2: { rewrite (locate_out cat s h a) by auto. reflexivity. }
  destruct s as [l c n g ac rl fr]. pose proof Hs as (W & C & _). cbn [bl cs] in *.
  destruct (find_block cat 0 l a W ltac:(lia)) as (q & b & t & E & Hb). subst l.
  rewrite (locate_spec cat h q b t c n g ac rl fr a) by auto. cbn [bind].
  unfold transfer_impl. destruct (Nat.ltb_spec e a) as [X|X]; [reflexivity|].
  destruct (Nat.le_gt_cases c e) as [Le|Le].
  { rewrite block_pos_out by exact Le. cbn [bind]. now rewrite Nat.eqb_refl. }
  assert (exists j, block_pos e (length q) (ST (q ++ b :: t) c n g ac rl fr) = Ok j) as (j & ->).
  { destruct (find_two cat 0 (q ++ b :: t) a e W) as [(q2 & b2 & t2 & E2 & L1 & L2)|(q2 & b1 & m & b2 & t2 & E2 & L1 & L2 & L3 & L4)]; try lia.
    - assert (length q2 = length q) as El.
      { pose proof (locate_spec cat h q b t c n g ac rl fr a W C Hb) as P1.
        rewrite E2 in P1, W, C. rewrite (locate_spec cat h q2 b2 t2 c n g ac rl fr a W C ltac:(lia)) in P1. congruence. }
      rewrite E2, <- El. rewrite E2 in W, C.
      pose proof (block_pos_spec cat q2 [] b2 t2 c n g ac rl fr e) as B. rewrite app_nil_r in B. cbn [bl] in B.
      rewrite B by (auto; lia). eauto.
    - assert (length q2 = length q) as El.
      { pose proof (locate_spec cat h q b t c n g ac rl fr a W C Hb) as P1.
        rewrite E2 in P1, W, C. rewrite (locate_spec cat h q2 b1 (m ++ b2 :: t2) c n g ac rl fr a W C ltac:(lia)) in P1. congruence. }
      rewrite E2, <- El. rewrite E2 in W, C.
      pose proof (block_pos_spec cat q2 (b1 :: m) b2 t2 c n g ac rl fr e) as B.
      rewrite <- app_assoc in B. cbn [app bl] in B.
      rewrite B by (auto; rewrite tot_app; cbn [tot]; lia). eauto. }
  cbn [bind]. destruct (j =? _); [reflexivity|].
  destruct (Nat.leb_spec (cs d) (dp + (e - a + 1) - 1)) as [Y|Y]; [reflexivity|lia].
Qed.
End P.
