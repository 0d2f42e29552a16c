(** multi_type_vector: taking blocks out for a range swap and putting blocks in. *)
From Coq Require Import List ZArith Lia Bool.
From Verif Require Import Base MtvModel MtvXfer MtvProofs MtvTac MtvWrap MtvXferMerge MtvXferHole MtvXferSteps MtvXferProofs.
Import ListNotations.

Section P.
Set Default Proof Using "Type".
Context {V : Type}.
Variable cat : V -> nat.
Variable managed : nat -> bool.
Notation eblk := (@eblk V).
Notation blk := (@blk V).
Notation st := (@st V).

Ltac piece_tac :=
  unfold piece, okb, okd, flatb; cbn [bp bs bd ev ecat];
  repeat match goal with |- _ /\ _ => split end; try exact Logic.I; try alia; try (solve [cats]);
  try reflexivity; try (solve [lnorm; leq]).

(** Nothing but blocks has changed. *)
Definition quiet (s s' : st) : Prop :=
  cs s' = cs s /\ tag s' = tag s /\ freed s' = freed s /\ acq s' = acq s /\ rel s' = rel s.

Lemma prep_first_spec (q : list blk) b ts c n g a r f off :
  wfl cat 0 (q ++ b :: ts) -> off < bs b ->
  wp (prep_first (length q) off (ST (q ++ b :: ts) c n g a r f))
     (fun x => exists Q X, bl (fst (fst x)) = Q ++ X ++ ts /\ snd x = length Q /\
        quiet (ST (q ++ b :: ts) c n g a r f) (fst (fst x)) /\
        map bcat (snd (fst x) ++ X) = [bcat b] /\ Forall (okb cat) (snd (fst x) ++ X) /\
        tot (snd (fst x) ++ X) = bs b - off /\
        flatl (snd (fst x) ++ X) = skipn off (flatb b) /\ refs (Q ++ X) = refs (q ++ [b]) /\
        length (Q ++ X) = S (length q) /\ lcut cat (q ++ b :: ts) Q (tot q + off)).
Proof.
  clear managed. intros W Ho. unfold prep_first.
  pose proof W as W'. apply wfl_app in W' as (Wq & Wb). cbn [wfl Nat.add] in Wb. destruct Wb as (Pb & Ob & Wt).
  destruct (Nat.eqb_spec off 0) as [->|Hne].
  { cbn [wp fst snd bl app]. exists q, [b].
    rewrite Nat.add_0_r, Nat.sub_0_r. cbn [skipn map].
    split; [reflexivity|]. split; [reflexivity|]. split; [unfold quiet; auto|]. split; [reflexivity|].
    split; [auto|]. split; [cbn; lia|]. split; [cbn; apply app_nil_r|]. split; [reflexivity|].
    split; [apply last_length|]. now apply lcut_whole. }
  destruct b as [pb zb [[ib cb lb]|]]; cbn [bs bp] in *.
  all: destruct Ob as [Oz Od]; cbn [bs bd okd ev ecat] in Oz, Od; dest_all.
  all: step_all; cbn [fst snd bl].
  all: destruct (Nat.eqb_spec (zb - off) 0) as [X|_]; [exfalso; lia|].
  all: eexists (q ++ [_]), []; rewrite <- ?app_assoc, ?app_nil_r; cbn [app].
  all: split; [reflexivity|].
  all: split; [now rewrite last_length|].
  all: split; [unfold quiet; cbn [cs tag freed acq rel]; auto|].
  all: split; [reflexivity|].
  all: split; [constructor; [|constructor]; piece_tac|].
  all: split; [cbn [tot bs]; lia|].
  all: split; [cbn; rewrite app_nil_r; unfold flatb; cbn [bd ev bs]; lnorm; leq|].
  all: split; [reflexivity || (rewrite !refs_app; reflexivity)|].
  all: split; [apply last_length|].
  all: apply (lcut_part cat _ (BK pb zb _) _ _ off); auto; try piece_tac.
Qed.

Lemma prep_last_spec (q : list blk) b t c n g a r f k :
  wfl cat (bp b) (b :: t) -> k < bs b ->
  wp (prep_last (length q) k (ST (q ++ b :: t) c n g a r f))
     (fun x => exists Y T, bl (fst (fst x)) = q ++ Y ++ T /\ snd x = length q + length Y /\
        quiet (ST (q ++ b :: t) c n g a r f) (fst (fst x)) /\
        map bcat (Y ++ snd (fst x)) = [bcat b] /\ Forall (okb cat) (Y ++ snd (fst x)) /\
        tot (Y ++ snd (fst x)) = S k /\
        flatl (Y ++ snd (fst x)) = firstn (S k) (flatb b) /\ refs (Y ++ T) = refs (b :: t) /\
        (forall l, wfl cat 0 (l ++ b :: t) -> rcut cat (l ++ b :: t) T (tot l + S k))).
Proof.
  clear managed. intros W Ho. unfold prep_last.
  cbn [wfl Nat.add] in W. destruct W as (Pb & Ob & Wt).
  unfold size_at, bat. cbn [bl]. rewrite nth_error_app_mid. cbn [deref bind].
  destruct (Nat.eqb_spec k (bs b - 1)) as [E|Hne].
  { cbn [wp fst snd bl app]. exists [b], t. assert (S k = bs b) as Ek by lia. rewrite Ek.
    pose proof (flatb_length cat b Ob) as Lb.
    split; [reflexivity|]. split; [cbn [length]; lia|]. split; [unfold quiet; auto|]. split; [reflexivity|].
    split; [constructor; [exact Ob|constructor]|]. split; [cbn; lia|]. split; [cbn; rewrite app_nil_r; rewrite firstn_all2; auto; lia|].
    split; [reflexivity|]. intros l Wl.
    replace (l ++ b :: t) with ((l ++ [b]) ++ t) by (rewrite <- app_assoc; reflexivity).
    replace (tot l + bs b) with (tot (l ++ [b])) by (rewrite tot_app; cbn [tot]; lia).
    apply rcut_whole. rewrite <- app_assoc. exact Wl. }
  destruct b as [pb zb [[ib cb lb]|]]; cbn [bs bp] in *.
  all: destruct Ob as [Oz Od]; cbn [bs bd okd ev ecat] in Oz, Od; dest_all.
  all: step_all; cbn [fst snd bl].
  all: destruct (Nat.eqb_spec (k + 1) 0) as [X|_]; [exfalso; lia|].
  all: eexists [], (_ :: t); cbn [app].
  all: split; [reflexivity|].
  all: split; [cbn [length]; lia|].
  all: split; [unfold quiet; cbn [cs tag freed acq rel]; auto|].
  all: split; [reflexivity|].
  all: split; [constructor; [|constructor]; piece_tac|].
  all: split; [cbn [tot bs]; lia|].
  all: replace (S k) with (k + 1) by lia; split; [rewrite flatl_cons, flatl_nil, app_nil_r; unfold flatb; cbn [bd ev bs]; lnorm; leq|].
  all: split; [reflexivity|].
  all: intros l Wl; apply (rcut_part cat _ (BK pb zb _) _ _ (k + 1)); auto; try piece_tac.
Qed.

(** The blocks taken out for the other container. *)
Definition bucket (B : list blk) (s : st) (a len : nat) : Prop :=
  Forall (okb cat) B /\ tot B = len /\ B <> [] /\ flatl B = firstn len (skipn a (flat s)) /\
  chain Ree (map bcat B) /\ (canon s -> chain Rne (map bcat B)).

Lemma place_ok (B : list blk) : Forall (okb cat) B -> forall p, wfl cat p (place p B).
Proof.
  clear managed. induction 1 as [|b B Hb HB IH]; intros p; cbn [place wfl bp bs bd]; [exact Logic.I|].
  split; [reflexivity|]. split; [exact Hb|apply IH].
Qed.

Lemma rel_blocks_eq (l : list blk) : forall (s : st),
  rel_blocks l s = ST (bl s) (cs s) (nid s) (tag s) (acq s) (rel s ++ refs l) (freed s).
Proof.
  clear cat managed. induction l as [|[p z [e|]] l IH]; intros s; cbn [rel_blocks bd].
  - destruct s. cbn. now rewrite app_nil_r.
  - rewrite IH. unfold ev_rel. cbn [bl cs nid tag acq rel freed]. rewrite refs_cons. cbn [refb bd].
    now rewrite <- app_assoc.
  - rewrite IH. reflexivity.
Qed.

Lemma acq_blocks_eq (l : list blk) : forall (s : st),
  acq_blocks l s = ST (bl s) (cs s) (nid s) (tag s) (acq s ++ refs l) (rel s) (freed s).
Proof.
  clear cat managed. induction l as [|[p z [e|]] l IH]; intros s; cbn [acq_blocks bd].
  - destruct s. cbn. now rewrite app_nil_r.
  - rewrite IH. unfold ev_acq. cbn [bl cs nid tag acq rel freed]. rewrite refs_cons. cbn [refb bd].
    now rewrite <- app_assoc.
  - rewrite IH. reflexivity.
Qed.

Lemma prepare_spec q b1 m b2 t c n g ac rl fr a e :
  let s := ST (q ++ b1 :: m ++ b2 :: t) c n g ac rl fr in
  good cat s -> tot q <= a -> a < tot q + bs b1 ->
  tot q + bs b1 + tot m <= e -> e < tot q + bs b1 + tot m + bs b2 ->
  wp (prepare (length q) (a - tot q) (S (length m + length q)) (e - (tot q + bs b1 + tot m)) s)
     (fun x => exists Q T, hole cat s (fst (fst x)) Q [] T a (e - a + 1) /\
        bucket (snd (fst x)) s a (e - a + 1) /\ snd x = length Q).
Proof.
  clear managed. intros s Hs H1 H2 H3 H4. set (len := e - a + 1).
  pose proof Hs as (W & Cs & Ch). unfold s in W, Cs, Ch. cbn [bl cs] in W, Cs, Ch.
  pose proof W as W'. apply wfl_app in W' as (Wq & Wb). cbn [wfl Nat.add] in Wb. destruct Wb as (E1 & O1 & Wb).
  apply wfl_app in Wb as (Wm & Wb). pose proof Wb as Wb2. cbn [wfl] in Wb. destruct Wb as (E2 & O2 & Wt).
  unfold prepare. set (off := a - tot q). set (k := e - (tot q + bs b1 + tot m)).
  apply wp_bind. unfold s at 1. eapply wp_mono; [apply (prep_first_spec q b1 (m ++ b2 :: t)); auto; unfold off; lia|].
  cbn beta. intros [[s1 F] ib] (Q & X & X1 & X2 & X3 & X4 & X5 & X6 & X7 & X8 & X9 & X10). cbn [fst snd] in *.
  destruct s1 as [l1 c1 n1 g1 a1 r1 f1]. cbn [bl] in X1. subst l1 ib.
  replace (S (length m + length q)) with (length (Q ++ X ++ m)) by (rewrite app_assoc, app_length, X9; lia).
  replace (Q ++ X ++ m ++ b2 :: t) with ((Q ++ X ++ m) ++ b2 :: t) by (rewrite <- !app_assoc; reflexivity).
  apply wp_bind. eapply wp_mono; [apply (prep_last_spec (Q ++ X ++ m) b2 t); [rewrite E2; exact Wb2|unfold k; lia]|].
  cbn beta. intros [[s2 G] ie] (Y & T & Y1 & Y2 & Y3 & Y4 & Y5 & Y6 & Y7 & Y8 & Y9). cbn [fst snd] in *.
  destruct s2 as [l2 c2 n2 g2 a2 r2 f2]. cbn [bl] in Y1. subst l2 ie.
  set (M := X ++ m ++ Y).
  assert ((Q ++ X ++ m) ++ Y ++ T = Q ++ M ++ T) as EM by (unfold M; rewrite <- !app_assoc; reflexivity).
  rewrite EM. cbn [bl].
  replace (length (Q ++ X ++ m) + length Y - length Q) with (length M)
    by (unfold M; rewrite !app_length; lia).
  rewrite skipn_app_exact, firstn_app_exact, rel_blocks_eq. cbn [bl cs nid tag acq rel freed].
  unfold del, nblk. cbn [bl].
  destruct (Nat.leb_spec (length Q + length M) (length (Q ++ M ++ T))) as [_|L]; [|rewrite !app_length in L; lia].
  unfold with_bl. cbn [bind wp bl cs nid tag acq rel freed fst snd].
  rewrite firstn_app_exact.
  replace (skipn (length Q + length M) (Q ++ M ++ T)) with T
    by (rewrite <- skip2, skipn_app_exact, skipn_app_exact; reflexivity).
  destruct X3 as (c1' & g1' & f1' & ac1 & rl1). destruct Y3 as (c2' & g2' & f2' & ac2 & rl2). cbn [cs tag freed acq rel] in *.
  assert (q ++ b1 :: m ++ b2 :: t = (q ++ b1 :: m) ++ b2 :: t) as Ea by (rewrite <- app_assoc; reflexivity).
  assert (tot (q ++ b1 :: m) = tot q + bs b1 + tot m) as Et by (rewrite tot_app; cbn [tot]; lia).
  pose proof (flatb_length cat b1 O1) as L1. pose proof (flatb_length cat b2 O2) as L2.
  set (B := F ++ M ++ G).
  assert (map bcat B = map bcat (b1 :: m ++ [b2])) as CB.
  { unfold B, M. rewrite !map_app in *. rewrite <- !app_assoc, Y4, (app_assoc (map bcat F)), X4. cbn [map app]. now rewrite map_app. }
  assert (forall R, chain R (map bcat (q ++ b1 :: m ++ b2 :: t)) -> chain R (map bcat B)) as ChB.
  { intros R HR. rewrite CB. rewrite map_app in HR. apply chain_post in HR.
    rewrite !map_cons, !map_app, !map_cons in *. cbn [map].
    change (chain R ((bcat b1 :: map bcat m) ++ bcat b2 :: map bcat t)) in HR. rewrite chain_mid in HR. apply HR. }
  exists Q, T. split; [|split; [|reflexivity]].
  - apply mk_hole; auto; cbn [bl cs tag freed acq rel]; try (unfold s; cbn [cs tag freed]; congruence).
    + replace a with (tot q + off) by (unfold off; lia). exact X10.
    + unfold s. cbn [bl]. rewrite Ea. replace (a + len) with (tot (q ++ b1 :: m) + S k)
        by (rewrite Et; unfold k, len; lia).
      apply Y9. rewrite <- Ea. exact W.
    + intros p. unfold s. cbn [bl acq rel]. rewrite ac2, ac1, rl2, rl1, cnt_app. unfold M. rewrite !refs_app, !cnt_app.
      assert (cnt p (refs Q) + cnt p (refs X) = cnt p (refs q) + cnt p (refb b1)) as A1.
      { rewrite <- cnt_app, <- refs_app, X8, refs_app, cnt_app. f_equal. cbn. now rewrite app_nil_r. }
      assert (cnt p (refs Y) + cnt p (refs T) = cnt p (refb b2) + cnt p (refs t)) as A2.
      { rewrite <- cnt_app, <- refs_app, Y8, refs_cons, cnt_app. reflexivity. }
      rewrite refs_cons, refs_app, refs_cons, !cnt_app. lia.
  - unfold bucket. assert (tot F + tot X = bs b1 - off) as T1 by (rewrite <- tot_app; exact X6).
    assert (tot Y + tot G = S k) as T2 by (rewrite <- tot_app; exact Y6).
    rewrite Forall_app in X5, Y5.
    split; [unfold B, M; rewrite !Forall_app; repeat split; try tauto; clear -Wm|].
    { revert Wm. generalize (tot q + bs b1). induction m as [|x m IH]; intros p Wm; constructor.
      - apply Wm. - destruct Wm as (_ & _ & Wm). eapply IH. exact Wm. }
    split; [unfold B, M; rewrite !tot_app; unfold len, off, k in *; lia|].
    split.
    { intros EB. apply (f_equal (map bcat)) in EB. rewrite CB in EB. discriminate. }
    split; [|split; [apply ChB; exact Ch|intros Hc; apply ChB; exact Hc]].
    unfold B, M. rewrite !flatl_app in *. rewrite <- !app_assoc, Y7, (app_assoc (flatl F)), X7.
    unfold flat, s. cbn [bl]. rewrite flatl_app, flatl_cons, flatl_app, flatl_cons.
    pose proof (flatl_length cat _ _ Wq) as Lq. pose proof (flatl_length cat _ _ Wm) as Lm.
    replace a with (off + length (flatl q)) by (unfold off; lia). rewrite skipn_off.
    rewrite skipn_app. replace (off - length (flatb b1)) with 0 by (unfold off; lia). cbn [skipn].
    replace len with (S k + length (skipn off (flatb b1) ++ flatl m))
      by (rewrite app_length, skipn_length; unfold k, off, len; lia).
    rewrite (app_assoc (skipn off (flatb b1)) (flatl m) (flatb b2 ++ flatl t)), firstn_off, <- app_assoc. f_equal. f_equal.
    rewrite firstn_app. replace (S k - length (flatb b2)) with 0 by (unfold k; lia). cbn [firstn]. now rewrite app_nil_r.
Qed.

(** Foreign blocks go into a hole. *)
Lemma bucket_in (s0 s : st) Q T a len B (o : st) b :
  hole cat s0 s Q [] T a len -> bucket B o b len ->
  wp (let* s1 := insert_blocks_at a (length Q) B s in
      let* (s2, _) := merge_next managed (length Q + length B - 1) s1 in
      let* (s3, _) := (if 0 <? length Q then merge_next managed (length Q - 1) s2 else Ok (s2, false)) in
      Ok s3)
     (fun x => xstep cat s0 x a len (firstn len (skipn b (flat o))) (canon o)).
Proof.
  intros H (B1 & B2 & B3 & B4 & B5 & B6).
  pose proof (place_ok B B1 a) as WB.
  assert (tot (place a B) = len) as TB by now rewrite place_tot.
  pose proof (hole_wfl cat _ _ _ _ _ _ _ _ H WB TB) as [WW TT].
  pose proof H as (E & _). cbn [app] in E.
  unfold insert_blocks_at, ins_l. rewrite acq_blocks_eq. unfold insert_at, nblk. cbn [bl]. rewrite E.
  destruct (Nat.leb_spec (length Q) (length (Q ++ T))) as [_|L]; [|rewrite app_length in L; lia].
  unfold with_bl. cbn [bind bl cs nid tag acq rel freed]. rewrite ?firstn_app_exact, ?skipn_app_exact.
  rewrite <- (place_len B a) at 1.
  apply wp_bind. eapply wp_mono; [apply (next_run cat managed Q (place a B) T); auto|].
  { intros E0. apply B3. apply (f_equal (@length blk)) in E0. rewrite place_len in E0. now destruct B. }
  cbn beta. intros [s2 u] H2. cbn [fst] in H2. apply wp_bind. eapply wp_mono; [exact H2|].
  cbn beta. intros [s3 u3] [M3 C3]. cbn [fst] in M3, C3. cbn [wp].
  rewrite <- B4, <- (place_flatl B a).
  eapply xstep_imp with (P := chain Rne (map bcat (place a B))).
  { intros _ Hc. rewrite place_bcat. auto. }
  eapply (fill_spec cat managed); [exact H|..|exact M3|exact C3]; cbn [bl cs tag freed rel acq]; auto.
  - intros p. now rewrite cnt_app, place_refs.
  - now rewrite place_bcat.
Qed.

Lemma put_bucket_spec (s0 s : st) Q T a len B (o : st) b :
  hole cat s0 s Q [] T a len -> bucket B o b len ->
  wp (put_bucket managed (length Q) B s)
     (fun x => xstep cat s0 x a len (firstn len (skipn b (flat o))) (canon o)).
Proof.
  intros H HB. unfold put_bucket.
  assert ((if 0 <? length Q then next_pos (length Q - 1) s else Ok 0) = Ok a) as ->.
  { pose proof H as (E & _ & _ & _ & W & T1 & _). cbn [app] in E.
    destruct Q as [|x Q _] using rev_ind; [cbn in *; congruence|].
    rewrite last_length. cbn [Nat.ltb Nat.leb Nat.sub]. rewrite Nat.sub_0_r.
    unfold next_pos, bat. rewrite E, <- app_assoc. cbn [app]. rewrite nth_error_app_mid. cbn [deref bind].
    apply (wfl_bp cat) in W. cbn [Nat.add] in W. rewrite tot_app in T1. cbn [tot] in T1. f_equal. lia. }
  cbn [bind]. eapply bucket_in; eauto.
Qed.
End P.
