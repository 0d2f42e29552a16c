(** multi_type_vector: taking a run of rows out of a container and filling the hole. *)
From Coq Require Import List ZArith Lia Bool.
From Verif Require Import Base MtvModel MtvXfer MtvProofs MtvTac MtvWrap MtvXferMerge.
Import ListNotations.

Section P.
Set Default Proof Using "Type".
Context {V : Type}.
Variable cat : V -> nat.
Variable managed : nat -> bool.
Notation eblk := (@eblk V).
Notation blk := (@blk V).
Notation st := (@st V).
Notation oown := (oown cat managed).

(** The rows [a, a+len) are out of the container; [z] are slots to be filled or removed. *)
Definition hole (s0 s : st) (q z t : list blk) (a len : nat) : Prop :=
  bl s = q ++ z ++ t /\ cs s = cs s0 /\ tag s = tag s0 /\ freed s = freed s0 /\
  wfl cat 0 q /\ tot q = a /\ wfl cat (a + len) t /\ a + len + tot t = cs s0 /\
  flatl q = firstn a (flat s0) /\ flatl t = skipn (a + len) (flat s0) /\
  chain Ree (map bcat q) /\ chain Ree (map bcat t) /\
  (canon s0 -> chain Rne (map bcat q) /\ chain Rne (map bcat t)) /\
  (forall p, cnt p (acq s) + cnt p (rel s0) + cnt p (refs (bl s0))
           = cnt p (acq s0) + cnt p (rel s) + cnt p (refs q) + cnt p (refs t)).

(** Rows replaced without freeing anything. *)
Definition xstep (s s' : st) (a len : nat) (x : list (option V)) (P : Prop) : Prop :=
  good cat s' /\ flat s' = splice a len x (flat s) /\ (canon s -> P -> canon s') /\ tag s' = tag s /\
  (forall p, cnt p (freed s') = cnt p (freed s)) /\ events s s'.

Lemma merged_freed (s s' : st) : wfl cat 0 (bl s) -> merged cat managed s s' ->
  forall p, cnt p (freed s') = cnt p (freed s).
Proof.
  intros H (W & _ & _ & _ & F & M & _) p. specialize (M p).
  rewrite <- (oown_flatl cat managed 0 _ W), <- (oown_flatl cat managed 0 _ H) in M.
  unfold flat in F. rewrite F in M. lia.
Qed.

Lemma hole_wfl s0 s q z t a len B :
  hole s0 s q z t a len -> wfl cat a B -> tot B = len ->
  wfl cat 0 (q ++ B ++ t) /\ tot (q ++ B ++ t) = cs s.
Proof.
  intros (E & C & _ & _ & W1 & T1 & W2 & T2 & _) HB HT. split.
  - rewrite !wfl_app. cbn [Nat.add]. rewrite T1, HT. auto.
  - rewrite !tot_app. lia.
Qed.

Lemma fill_core s0 s s1 s2 q z t a len B (P : Prop) :
  hole s0 s q z t a len -> bl s1 = q ++ B ++ t -> cs s1 = cs s -> tag s1 = tag s -> freed s1 = freed s ->
  rel s1 = rel s -> (forall p, cnt p (acq s1) = cnt p (acq s) + cnt p (refs B)) ->
  wfl cat a B -> tot B = len ->
  merged cat managed s1 s2 -> chain Ree (map bcat (bl s2)) -> (canon s0 -> P -> canon s2) ->
  xstep s0 s2 a len (flatl B) P.
Proof.
  intros H E1 E2 E3 E4 E5 E6 HB HT HM HC HP.
  pose proof (hole_wfl _ _ _ _ _ _ _ _ H HB HT) as [W T].
  destruct H as (F1 & F2 & F3 & F4 & F5 & F6 & F7 & F8 & F9 & F10 & F11 & F12 & F13 & F14).
  rewrite <- E1 in W.
  pose proof (merged_freed _ _ W HM) as Hf.
  destruct HM as (M1 & M2 & M3 & M4 & M5 & M6 & M7).
  split; [split; [exact M1|split; [exact M2|exact HC]]|].
  split; [rewrite M5; unfold flat at 1; rewrite E1, !flatl_app, F9, F10; reflexivity|].
  split; [exact HP|].
  split; [congruence|]. split; [intros p; rewrite Hf, E4, F4; reflexivity|].
  intros p. specialize (M7 p). specialize (F14 p). specialize (E6 p).
  rewrite E1, !refs_app, !cnt_app in M7. rewrite E5 in M7. lia.
Qed.

Lemma fill_spec s0 s s1 s2 q z t a len B :
  hole s0 s q z t a len -> bl s1 = q ++ B ++ t -> cs s1 = cs s -> tag s1 = tag s -> freed s1 = freed s ->
  rel s1 = rel s -> (forall p, cnt p (acq s1) = cnt p (acq s) + cnt p (refs B)) ->
  wfl cat a B -> tot B = len -> chain Ree (map bcat B) ->
  merged cat managed s1 s2 ->
  (forall R, loose R -> chain R (map bcat q) -> chain R (map bcat B) -> chain R (map bcat t) ->
     chain R (map bcat (bl s2))) ->
  xstep s0 s2 a len (flatl B) (chain Rne (map bcat B)).
Proof.
  intros H E1 E2 E3 E4 E5 E6 HB HT HC HM HR.
  pose proof H as (F1 & F2 & F3 & F4 & F5 & F6 & F7 & F8 & F9 & F10 & F11 & F12 & F13 & F14).
  eapply fill_core; eauto.
  - apply HR; auto using loose_ree.
  - intros Hc HP; apply F13 in Hc as [? ?]; apply HR; auto using loose_rne.
Qed.

(** The emptied block of the destination. *)
Lemma empty_block (s : st) k a len :
  good cat s -> 0 < len -> a + len <= cs s -> at_pos s k a ->
  (forall i, i < len -> nth_error (flat s) (a + i) = Some None) ->
  exists q p z t, bl s = q ++ BK p z None :: t /\ length q = k /\ tot q = p /\ p <= a /\ a + len <= p + z.
Proof.
  intros (Hw & Hc & Hn) Hl Ha (b & Hb & Hp) HN.
  apply nth_error_split in Hb as (q & t & E & Hk). rewrite E in *.
  pose proof (wfl_bp cat _ _ _ _ Hw) as Hbp. cbn [Nat.add] in Hbp.
  destruct b as [p z d]. cbn [bp bs] in *. subst p.
  apply wfl_app in Hw as [Wq Wb]. cbn [wfl bp bs] in Wb. destruct Wb as (_ & Hok & Wt).
  pose proof (flatl_length cat 0 q Wq) as Lq. cbn [Nat.add] in *.
  assert (d = None) as ->.
  { specialize (HN 0 Hl). unfold flat in HN. rewrite E, flatl_app, flatl_cons in HN.
    rewrite Nat.add_0_r, nth_error_app2 in HN by lia.
    pose proof (flatb_length cat _ Hok) as Lb. cbn [bs] in Lb.
    rewrite nth_error_app1 in HN by lia.
    destruct d as [e|]; [|reflexivity]. unfold flatb in HN. cbn [bd] in HN.
    rewrite nth_error_map in HN. destruct (nth_error (ev e) _); discriminate. }
  exists q, (tot q), z, t. split; [reflexivity|]. split; [exact Hk|]. split; [reflexivity|]. split; [lia|].
  destruct (Nat.le_gt_cases (a + len) (tot q + z)) as [L|L]; [exact L|exfalso].
  rewrite tot_app in Hc. cbn [tot bs] in Hc.
  destruct t as [|[p' z' d'] t]; [cbn [tot] in Hc; lia|].
  assert (d' = None) as ->.
  { specialize (HN (tot q + z - a) ltac:(lia)). unfold flat in HN.
    rewrite E, flatl_app, flatl_cons, flatl_cons in HN.
    rewrite nth_error_app2 in HN by lia.
    pose proof (flatb_length cat _ Hok) as Lb. cbn [bs] in Lb.
    rewrite nth_error_app2 in HN by lia. rewrite Lb, Lq in HN.
    replace (a + (tot q + z - a) - tot q - z) with 0 in HN by lia.
    cbn [wfl] in Wt. destruct Wt as (_ & [Hz' Hok'] & _). cbn [bs bd] in *.
    destruct d' as [e|]; [|reflexivity]. unfold flatb in HN. cbn [bd] in HN.
    cbn [okd] in Hok'. destruct (ev e) as [|v l]; [cbn in Hok'; lia|]. cbn in HN. discriminate. }
  rewrite map_app, !map_cons, !bcat_none in Hn. rewrite chain_mid in Hn. destruct Hn as [_ [Hn _]].
  exact (Hn eq_refl eq_refl).
Qed.

Lemma hole_after (s0 s1 s : st) x q z t a len :
  length (flat s1) = length (flat s0) -> cs s1 = cs s0 -> length x = len -> a + len <= length (flat s0) ->
  flat s1 = splice a len x (flat s0) -> tag s1 = tag s0 -> freed s1 = freed s0 ->
  (canon s0 -> canon s1) -> events s0 s1 ->
  hole s1 s q z t a len -> hole s0 s q z t a len.
Proof.
  intros L1 C1 Lx La F1 T1 Fr Ca Ev (H1 & H2 & H3 & H4 & H5 & H6 & H7 & H8 & H9 & H10 & H11 & H12 & H13 & H14).
  repeat split; auto; try congruence; try (apply H13; auto).
  - rewrite H9, F1. unfold splice. rewrite firstn_app, firstn_firstn, firstn_length.
    replace (Nat.min a a) with a by lia. replace (a - Nat.min a (length (flat s0))) with 0 by lia.
    cbn [firstn]. apply app_nil_r.
  - rewrite H10, F1. unfold splice. rewrite app_assoc.
    replace (a + len) with (0 + length (firstn a (flat s0) ++ x)) at 1
      by (rewrite app_length, firstn_length; lia).
    now rewrite skipn_off.
  - intros p. specialize (H14 p). specialize (Ev p). lia.
Qed.


(** The rows before [a], and those from [e] on. *)
Definition lcut (L q : list blk) (a : nat) : Prop :=
  wfl cat 0 q /\ tot q = a /\ flatl q = firstn a (flatl L) /\
  (forall R, chain R (map bcat L) -> chain R (map bcat q)).
Definition rcut (L t : list blk) (e : nat) : Prop :=
  wfl cat e t /\ e + tot t = tot L /\ flatl t = skipn e (flatl L) /\
  (forall R, chain R (map bcat L) -> chain R (map bcat t)).

Lemma lcut_whole q l : wfl cat 0 (q ++ l) -> lcut (q ++ l) q (tot q).
Proof.
  clear managed.
  intros W. apply wfl_app in W as [W1 W2]. split; [exact W1|]. split; [reflexivity|].
  split.
  - rewrite flatl_app, <- (flatl_length cat 0 q W1). now rewrite firstn_app_exact.
  - intros R H. rewrite map_app in H. eapply chain_pre; eauto.
Qed.

Lemma lcut_part q b b' l k e :
  e = tot q + k ->
  wfl cat 0 (q ++ b :: l) -> bp b' = bp b -> bs b' = k -> okb cat b' -> k <= bs b ->
  flatb b' = firstn k (flatb b) -> bcat b' = bcat b -> lcut (q ++ b :: l) (q ++ [b']) e.
Proof.
  clear managed.
  intros -> W E1 E2 Hok Hk E3 E4. pose proof (wfl_bp cat _ _ _ _ W) as Hb. cbn [Nat.add] in Hb.
  apply wfl_app in W as [W1 W2]. cbn [wfl Nat.add] in W2. destruct W2 as (_ & Hokb & _).
  split; [rewrite wfl_app; cbn [wfl Nat.add]; repeat split; auto; try apply Hok; lia|].
  split; [rewrite tot_app; cbn [tot]; lia|].
  split.
  - rewrite !flatl_app, !flatl_cons, flatl_nil, app_nil_r, E3.
    rewrite <- (flatl_length cat 0 q W1), Nat.add_comm, firstn_off. f_equal.
    rewrite firstn_app, (flatb_length cat b Hokb). replace (k - bs b) with 0 by lia.
    cbn [firstn]. now rewrite app_nil_r.
  - intros R H. rewrite map_app in *. cbn [map] in *. rewrite E4. rewrite chain_mid in H. tauto.
Qed.

Lemma rcut_whole l t : wfl cat 0 (l ++ t) -> rcut (l ++ t) t (tot l).
Proof.
  clear managed.
  intros W. apply wfl_app in W as [W1 W2]. split; [exact W2|]. split; [now rewrite tot_app|].
  split.
  - rewrite flatl_app, <- (flatl_length cat 0 l W1). now rewrite skipn_app_exact.
  - intros R H. rewrite map_app in H. eapply chain_post; eauto.
Qed.

Lemma rcut_part l b b' t k e :
  e = tot l + k ->
  wfl cat 0 (l ++ b :: t) -> bp b' = bp b + k -> bs b' = bs b - k -> okb cat b' -> k <= bs b ->
  flatb b' = skipn k (flatb b) -> bcat b' = bcat b -> rcut (l ++ b :: t) (b' :: t) e.
Proof.
  clear managed.
  intros -> W E1 E2 Hok Hk E3 E4. pose proof (wfl_bp cat _ _ _ _ W) as Hb. cbn [Nat.add] in Hb.
  apply wfl_app in W as [W1 W2]. cbn [wfl Nat.add] in W2. destruct W2 as (_ & Hokb & W3).
  split.
  { cbn [wfl]. split; [lia|]. split; [exact Hok|]. eapply wfl_cast; [exact W3|lia]. }
  split; [rewrite tot_app; cbn [tot]; lia|].
  split.
  - rewrite flatl_cons, flatl_app, flatl_cons, E3.
    rewrite <- (flatl_length cat 0 l W1), Nat.add_comm, skipn_off.
    rewrite skipn_app, (flatb_length cat b Hokb). replace (k - bs b) with 0 by lia. reflexivity.
  - intros R H. rewrite map_app, !map_cons in *. rewrite E4. eapply chain_post; eauto.
Qed.

Lemma mk_hole (s0 s : st) q z t a len :
  good cat s0 -> lcut (bl s0) q a -> rcut (bl s0) t (a + len) ->
  bl s = q ++ z ++ t -> cs s = cs s0 -> tag s = tag s0 -> freed s = freed s0 ->
  (forall p, cnt p (acq s) + cnt p (rel s0) + cnt p (refs (bl s0))
           = cnt p (acq s0) + cnt p (rel s) + cnt p (refs q) + cnt p (refs t)) ->
  hole s0 s q z t a len.
Proof.
  clear managed.
  intros (G1 & G2 & G3) (L1 & L2 & L3 & L4) (R1 & R2 & R3 & R4) E1 E2 E3 E4 E5.
  repeat split; auto. lia.
Qed.

(** An empty block is cut at both ends of the range. *)
Lemma cut_empty q z t c n g a r f dp len :
  let s := ST (q ++ BK (tot q) z None :: t) c n g a r f in
  good cat s -> 0 < len -> tot q <= dp -> dp + len <= tot q + z ->
  exists q' t' : list blk,
    lcut (bl s) q' dp /\ refs q' = refs q /\
    ((dp = tot q /\ q' = q) \/ (tot q < dp /\ q' = q ++ [BK (tot q) (dp - tot q) None])) /\
    rcut (bl s) t' (dp + len) /\ refs t' = refs t /\
    ((dp + len = tot q + z /\ t' = t) \/
     (dp + len < tot q + z /\ t' = BK (dp + len) (tot q + z - (dp + len)) None :: t)).
Proof.
  clear managed. intros s Hg Hl H1 H2.
  assert (exists q' : list blk, lcut (bl s) q' dp /\ refs q' = refs q /\
    ((dp = tot q /\ q' = q) \/ (tot q < dp /\ q' = q ++ [BK (tot q) (dp - tot q) None]))) as (q' & L1 & L2 & L3).
  { unfold s in *. pose proof Hg as (W & _). cbn [bl] in *.
    destruct (Nat.eq_dec dp (tot q)) as [E|E].
    - exists q. split; [|auto]. rewrite E. now apply lcut_whole.
    - exists (q ++ [BK (tot q) (dp - tot q) None]). split.
      + apply (lcut_part _ _ _ _ (dp - tot q)); auto; cbn [bs bd]; try lia.
        * split; [cbn [bs]; lia|exact Logic.I].
        * unfold flatb. cbn [bd bs]. rewrite firstn_rep. f_equal. lia.
      + split; [rewrite refs_app; cbn; apply app_nil_r|]. right. split; [lia|reflexivity]. }
  assert (exists t' : list blk, rcut (bl s) t' (dp + len) /\ refs t' = refs t /\
    ((dp + len = tot q + z /\ t' = t) \/ (dp + len < tot q + z /\ t' = BK (dp + len) (tot q + z - (dp + len)) None :: t)))
    as (t' & R1 & R2 & R3).
  { unfold s in *. pose proof Hg as (W & _). cbn [bl] in *.
    destruct (Nat.eq_dec (dp + len) (tot q + z)) as [E|E].
    - exists t. split; [|auto]. rewrite E.
      replace (q ++ BK (tot q) z None :: t) with ((q ++ [BK (tot q) z None]) ++ t) by (rewrite <- app_assoc; reflexivity).
      replace (tot q + z) with (tot (q ++ [@BK V (tot q) z None])) by (rewrite tot_app; cbn [tot bs]; lia).
      apply rcut_whole. rewrite <- app_assoc. exact W.
    - exists (BK (dp + len) (tot q + z - (dp + len)) None :: t). split.
      + apply (rcut_part _ _ _ _ (dp + len - tot q)); auto; cbn [bs bd bp]; try lia.
        * split; [cbn [bs]; lia|exact Logic.I].
        * unfold flatb. cbn [bd bs]. rewrite skipn_rep. f_equal. lia.
      + split; [reflexivity|]. right. split; [lia|reflexivity]. }
  exists q', t'. auto 10.
Qed.

Lemma carve_spec q p z t c n g a r f dp len :
  let s := ST (q ++ BK p z None :: t) c n g a r f in
  good cat s -> 0 < len -> p <= dp -> dp + len <= tot q + z ->
  wp (carve dp len (length q) s)
     (fun x => exists q' t', snd x = length q' /\ hole s (fst x) q' [BK dp len None] t' dp len).
Proof.
  intros s Hg Hl H1 H2.
  assert (p = tot q) as -> by (destruct Hg as (W & _); apply (wfl_bp cat) in W; exact W).
  destruct (cut_empty q z t c n g a r f dp len Hg Hl H1 H2) as (q' & t' & L1 & L2 & L3 & R1 & R2 & R3).
  pose proof Hg as Hg'. unfold s in Hg. open_good Hg.
  unfold s, carve. step_all; cbn [fst snd]; exists q', t'.
  all: destruct L3 as [[Ea ->]|[Ea ->]]; try (exfalso; alia).
  all: (split; [try rewrite last_length; reflexivity|]).
  all: apply mk_hole; auto.
  all: destruct R3 as [[Eb ->]|[Eb ->]]; try (exfalso; alia).
  all: cbn [bl acq rel freed]; rewrite <- ?app_assoc; cbn [app Nat.add].
  all: try (solve [repeat match goal with
      | |- _ ++ _ = _ ++ _ => f_equal
      | |- _ :: _ = _ :: _ => f_equal
      | |- BK _ _ _ = BK _ _ _ => f_equal end; alia]).
  all: intros ?; fin_cnt0; alia.
Qed.

Definition zero (b : blk) : Prop := bs b = 0 /\ bd b = None.

Lemma carve_n_spec q p z t c n g a r f dp len k :
  let s := ST (q ++ BK p z None :: t) c n g a r f in
  good cat s -> 0 < len -> p <= dp -> dp + len <= tot q + z ->
  wp (carve_n managed dp len (S (S k)) (length q) s)
     (fun x => exists q' Z zl t', snd x = length q' /\ length Z = k /\ Forall zero Z /\ zero zl /\
        hole s (fst x) q' (BK 0 0 None :: Z ++ [zl]) t' dp len).
Proof.
  intros s Hg Hl H1 H2.
  assert (p = tot q) as -> by (destruct Hg as (W & _); apply (wfl_bp cat) in W; exact W).
  destruct (cut_empty q z t c n g a r f dp len Hg Hl H1 H2) as (q' & t' & L1 & L2 & L3 & R1 & R2 & R3).
  pose proof Hg as Hg'. unfold s in Hg. open_good Hg.
  assert (forall l, BK 0 0 None :: BK 0 0 None :: repeat (BK 0 0 None) k ++ l
     = (BK 0 0 None :: repeat (@BK V 0 0 None) k ++ [BK 0 0 None]) ++ l) as Er.
  { intros l. rewrite <- repeat_cons. reflexivity. }
  assert (Forall zero (repeat (BK 0 0 None) k)) as Fz
    by (apply Forall_forall; intros x Hx; apply repeat_spec in Hx; subst; split; reflexivity).
  unfold s, carve_n. step_all.
  4: eapply wp_eq; [|cbn [wp]].
  4: { rewrite repeat_app. cbn [repeat].
    set (B := @BK V 0 0 None). set (X := BK (tot q) (dp - tot q) None).
    set (Q := q ++ X :: B :: B :: repeat B k).
    replace (q ++ X :: B :: B :: (repeat B k ++ [B]) ++ t) with (Q ++ B :: t)
      by (unfold Q; rewrite <- !app_assoc; reflexivity).
    assert (length q + S (S k) + 1 = length Q) as -> by (unfold Q; rewrite app_length; cbn [length]; rewrite repeat_length; lia).
    unfold set_size, bat. cbn [bl].
    assert (forall b : blk, nth_error (Q ++ b :: t) (length Q) = Some b) as N1 by (intros b; apply (nth_off Q (b :: t) 0)).
    assert (forall b b' : blk, set_nth (length Q) b' (Q ++ b :: t) = Q ++ b' :: t) as N2 by (intros b b'; apply (set_off Q (b :: t) 0)).
    rewrite N1. cbn [deref bind bl]. rewrite N2. cbn [bl]. rewrite N1. cbn [deref bind bl with_bl]. rewrite N2.
    cbn [bp bs bd cs nid tag acq rel freed wp].
    subst B Q X. rewrite <- app_assoc. cbn [app]. reflexivity. }
  4: unfold with_bl; cbn [bl cs nid tag acq rel freed].
  all: cbn [fst snd bl cs nid tag acq rel freed].
  all: exists q', (repeat (BK 0 0 None) k).
  2: exists (BK (tot q) 0 None). 1,3,4: exists (BK 0 0 None).
  all: exists t'.
  all: destruct L3 as [[Ea ->]|[Ea ->]]; try (exfalso; alia).
  all: (split; [try rewrite last_length; reflexivity|]).
  all: split; [apply repeat_length|].
  all: split; [exact Fz|]. all: split; [split; reflexivity|].
  all: apply mk_hole; auto.
  all: destruct R3 as [[Eb ->]|[Eb ->]]; try (exfalso; alia).
  all: cbn [fst snd bl acq rel freed]; rewrite <- ?app_assoc; cbn [app Nat.add].
  all: try (solve [rewrite ?Er, <- ?app_assoc; cbn [app]; replace (S (S k) - 1) with (S k) by lia; cbn [repeat app];
      rewrite <- ?app_assoc; cbn [app]; repeat match goal with
      | |- _ ++ _ = _ ++ _ => f_equal
      | |- _ :: _ = _ :: _ => f_equal
      | |- BK _ _ _ = BK _ _ _ => f_equal end; alia]).
  all: try (intros ?; fin_cnt0; alia).
Qed.
End P.
