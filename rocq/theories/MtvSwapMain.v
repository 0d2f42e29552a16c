(** multi_type_vector: the cases of a range swap put together. *)
From Coq Require Import List ZArith Lia Bool.
From Verif Require Import Base MtvModel MtvXfer MtvProofs MtvTac MtvWrap MtvXferMerge MtvXferHole MtvXferSteps MtvXferProofs MtvSwapParts MtvSwapExch MtvSwapProofs.
Import ListNotations.

Section P.
Set Default Proof Using "Type".
Context {V : Type}.
Variable cat : V -> nat.
Variable managed : nat -> bool.
Notation eblk := (@eblk V).
Notation blk := (@blk V).
Notation st := (@st V).
Notation rows a len s := (firstn len (skipn a (flat s))).

(** The rows of [s] all of type [c]. *)
Definition all_of (c : nat) (s : st) (a len : nat) : Prop :=
  forall i, i < len -> exists v, nth_error (flat s) (a + i) = Some (Some v) /\ cat v = c.

(** The rows that go into [o] are of a managed type [c] and so are both neighbours. *)
Definition sandwiched (s o : st) (a len op : nat) : Prop :=
  exists c, all_of c s a len /\ (exists c', c' <> c /\ all_of c' o op len) /\ between cat managed c o op len.

Definition traded (s o : st) (a len op : nat) (x : st * st) : Prop :=
  xstep cat s (fst x) a len (rows op len o) (canon o) /\
  ystep cat (sandwiched s o a len op) o (snd x) op len (rows a len s) (canon s).

Lemma ystep_of (X P P' : Prop) (s s' : st) a len x : (canon s -> P' -> P) ->
  xstep cat s s' a len x P -> ystep cat X s s' a len x P'.
Proof. intros HP (A1 & A2 & A3 & A4 & A5 & A6). unfold ystep. repeat match goal with |- _ /\ _ => split end; auto. Qed.

Lemma ystep_imp (X X' P P' : Prop) (s s' : st) a len x : (X -> X') -> (canon s -> P' -> P) ->
  ystep cat X s s' a len x P -> ystep cat X' s s' a len x P'.
Proof. clear managed. intros HX HP (A1 & A2 & A3 & A4 & A5 & A6). unfold ystep. repeat match goal with |- _ /\ _ => split end; auto. tauto. Qed.

Lemma xstep_same (s : st) a len P : good cat s -> xstep cat s s a len (rows a len s) P.
Proof.
  intros H. unfold xstep. rewrite splice_same. repeat match goal with |- _ /\ _ => split end; auto.
  intros p. lia.
Qed.

Lemma xstep_of_rstep (s s' : st) a len x P :
  rows a len s = repeat None len -> rstep cat managed s s' a len x P -> xstep cat s s' a len x P.
Proof.
  intros E (A1 & A2 & A3 & A4 & A5 & A6). unfold xstep. repeat match goal with |- _ /\ _ => split end; auto.
  intros p. rewrite A5, E, oown_none. cbn [cnt]. lia.
Qed.

(** Rows inside one block. *)
Lemma rows_in q b t c n g ac rl fr a len :
  let s := ST (q ++ b :: t) c n g ac rl fr in
  good cat s -> tot q <= a -> a + len <= tot q + bs b -> rows a len s = firstn len (skipn (a - tot q) (flatb b)).
Proof. clear managed. intros s Hs H1 H2. apply (slice_mid cat); auto. apply Hs. Qed.

Lemma rows_in_none q z t p c n g ac rl fr a len :
  let s := ST (q ++ BK p z None :: t) c n g ac rl fr in
  good cat s -> tot q <= a -> a + len <= tot q + z -> rows a len s = repeat None len.
Proof.
  clear managed. intros s Hs H1 H2. unfold s. rewrite rows_in by auto. unfold flatb. cbn [bd bs].
  rewrite skipn_rep, firstn_rep. f_equal. lia.
Qed.

Lemma rows_in_some q z e t p c n g ac rl fr a len :
  let s := ST (q ++ BK p z (Some e) :: t) c n g ac rl fr in
  good cat s -> tot q <= a -> a + len <= tot q + z ->
  rows a len s = map Some (firstn len (skipn (a - tot q) (ev e))).
Proof.
  clear managed. intros s Hs H1 H2. unfold s. rewrite rows_in by auto. unfold flatb. cbn [bd bs].
  now rewrite skipn_map, firstn_map.
Qed.

Lemma nth_rows {A} (l : list A) a len i : i < len -> nth_error (firstn len (skipn a l)) i = nth_error l (a + i).
Proof.
  revert l. induction a as [|a IH]; intros l Hi; cbn [skipn Nat.add].
  - revert l i Hi. induction len as [|len IH]; intros [|x l] [|i] Hi; cbn; auto; try lia. apply IH. lia.
  - destruct l as [|x l]; [|apply IH; lia]. rewrite firstn_nil. now destruct i.
Qed.

Lemma all_of_in q z e t p c n g ac rl fr a len :
  let s := ST (q ++ BK p z (Some e) :: t) c n g ac rl fr in
  good cat s -> tot q <= a -> a + len <= tot q + z -> all_of (ecat e) s a len.
Proof.
  clear managed. intros s Hs H1 H2 i Hi.
  pose proof (rows_in_some q z e t p c n g ac rl fr a len Hs H1 H2) as R. fold s in R.
  destruct Hs as (W & _). unfold s in W. cbn [bl] in W.
  apply wfl_app in W as (_ & _ & W & _). destruct W as (_ & W & W3). cbn [bs] in *.
  rewrite <- (nth_rows _ a len i Hi), R, nth_error_map, nth_rows by exact Hi.
  destruct (nth_error (ev e) (a - tot q + i)) as [v|] eqn:E.
  - exists v. split; [reflexivity|]. apply nth_error_In in E.
    unfold all_cat in W3. rewrite forallb_forall in W3. apply W3 in E. now apply Nat.eqb_eq in E.
  - apply nth_error_None in E. lia.
Qed.

Lemma swap_single_spec q b t c n g ac rl fr q' b' t' c' n' g' ac' rl' fr' a e op :
  let s := ST (q ++ b :: t) c n g ac rl fr in
  let o := ST (q' ++ b' :: t') c' n' g' ac' rl' fr' in
  let len := e - a + 1 in
  good cat s -> good cat o -> a <= e -> tot q <= a -> e < tot q + bs b ->
  tot q' <= op -> op + len <= tot q' + bs b' ->
  wp (swap_single cat managed a e op (length q) (length q') s o) (traded s o a len op).
Proof.
  intros s o len Hs Ho H1 H2 H3 H4 H5.
  assert (0 < len) as Hl by (unfold len; lia). assert (a + len <= tot q + bs b) as H3' by (unfold len; lia).
  assert (bp b = tot q) as Eb by (destruct Hs as (W & _); apply (wfl_bp cat) in W; exact W).
  assert (bp b' = tot q') as Eb' by (destruct Ho as (W & _); apply (wfl_bp cat) in W; exact W).
  assert (okb cat b) as Ob by (destruct Hs as (W & _); apply wfl_app in W as [_ W2]; cbn [wfl] in W2; tauto).
  assert (okb cat b') as Ob' by (destruct Ho as (W & _); apply wfl_app in W as [_ W2]; cbn [wfl] in W2; tauto).
  unfold swap_single. fold len.
  unfold data_at, pos_at, size_at, bat. unfold s at 1 2 3, o at 1 2. cbn [bl]. rewrite !nth_error_app_mid. cbn [deref bind].
  destruct b as [pb zb db]; destruct b' as [pb' zb' db']; cbn [bp bs bd] in *. subst pb pb'.
  destruct db as [eb|]; destruct db' as [eb'|].
  2: { (* empty rows in the other container *)
    assert (rows op len o = repeat None len) as Ro by (apply rows_in_none; auto).
    apply wp_bind. eapply wp_mono.
    { apply (transfer_single_spec cat managed q (BK (tot q) zb (Some eb)) t); auto.
      destruct Ho as (_ & C & _). rewrite C. unfold o. cbn [bl]. rewrite tot_app. cbn [tot bs]. unfold len in *. lia. }
    fold s. fold len. cbn beta. intros [[s1 o1] k] (M1 & _ & M2). cbn [fst snd] in *. cbn [wp].
    unfold traded. cbn [fst snd]. rewrite Ro. split.
    - eapply xstep_imp; [|exact M1]. auto.
    - eapply ystep_of; [|eapply xstep_of_rstep; [exact Ro|exact M2]]. auto. }
  2: { (* empty rows in this container *)
    assert (rows a len s = repeat None len) as Rs by (apply rows_in_none; auto).
    apply wp_bind. eapply wp_mono.
    { apply (transfer_single_spec cat managed q' (BK (tot q') zb' (Some eb')) t'); auto; cbn [bs]; unfold len in *; try lia.
      destruct Hs as (_ & C & _). rewrite C. unfold s. cbn [bl]. rewrite tot_app. cbn [tot bs]. lia. }
    fold o. replace (op + e - a - op + 1) with len by (unfold len; lia).
    cbn beta. intros [[o1 s1] k] (M1 & _ & M2). cbn [fst snd] in *. cbn [wp].
    unfold traded. cbn [fst snd]. rewrite Rs. split.
    - eapply xstep_of_rstep; [exact Rs|exact M2].
    - eapply ystep_of; [|exact M1]. auto. }
  2: { cbn [wp]. unfold traded. cbn [fst snd].
    assert (rows a len s = repeat None len) as Rs by (apply rows_in_none; auto).
    assert (rows op len o = repeat None len) as Ro by (apply rows_in_none; auto).
    split; [rewrite Ro, <- Rs; apply xstep_same; auto|].
    eapply (ystep_of _ True); [auto|]. rewrite Rs, <- Ro. apply xstep_same; auto. }
  assert (rows a len s = map Some (firstn len (skipn (a - tot q) (ev eb)))) as Rs by (apply rows_in_some; auto).
  assert (rows op len o = map Some (firstn len (skipn (op - tot q') (ev eb')))) as Ro by (apply rows_in_some; auto).
  assert (all_of (ecat eb) s a len) as As by (apply all_of_in; auto).
  assert (all_of (ecat eb') o op len) as Ao by (apply all_of_in; auto).
  destruct eb as [ie ce le]. destruct eb' as [ie' ce' le']. cbn [ecat ev] in *.
  destruct Ob as [Oz [Ol Oc]]. destruct Ob' as [Oz' [Ol' Oc']]. cbn [bs bd ev ecat] in *.
  destruct (Nat.eqb_spec ce ce') as [Ec|Ec].
  { subst ce'. unfold e_slice. cbn [ev].
    destruct (Nat.leb_spec (a - tot q + len) (length le)) as [_|L]; [|lia]. cbn [bind].
    destruct (Nat.leb_spec (op - tot q' + len) (length le')) as [_|L]; [|lia]. cbn [bind].
    apply wp_bind. eapply wp_mono.
    { apply (set_same_spec cat q ie zb ce le t c n g ac rl fr a len); auto; [|lens; lia].
      apply all_cat_firstn, all_cat_skipn. exact Oc'. }
    cbn beta. intros s1 X1. apply wp_bind. eapply wp_mono.
    { apply (set_same_spec cat q' ie' zb' ce le' t' c' n' g' ac' rl' fr' op len); auto; [|lens; lia].
      apply all_cat_firstn, all_cat_skipn. exact Oc. }
    cbn beta. intros o1 X2. cbn [wp]. unfold traded. cbn [fst snd]. rewrite Rs, Ro.
    split; [eapply xstep_imp; [|exact X1]; auto|eapply ystep_of; [|exact X2]; auto]. }
  assert (between cat managed ce o op len -> sandwiched s o a len op) as HX.
  { intros Hb. exists ce. split; [exact As|]. split; [exists ce'; auto|exact Hb]. }
  pose proof (exchange_spec cat managed q' ie' zb' ce' le' t' c' n' g' ac' rl' fr' op len (EB ie ce le) (a - tot q)) as EX.
  cbn [ecat ev okd] in EX. specialize (EX Ho H4 Hl H5 Ec (conj eq_refl Oc) ltac:(lia)). fold o in EX.
  destruct ((a - tot q =? 0) && (zb - (a - tot q) - len =? 0)) eqn:Ew.
  - apply andb_true_iff in Ew as [Ew1 Ew2]. apply Nat.eqb_eq in Ew1, Ew2.
    apply wp_bind. eapply wp_mono; [exact EX|]. cbn beta. intros [o1 r] (Y & Er & Ev). cbn [fst snd] in *.
    assert (a = tot q) as Ea by lia. assert (len = zb) as El by lia.
    assert (okd cat zb (Some r)) as Okr.
    { cbn [okd]. rewrite Er, Ev. split; [lens; lia|]. apply all_cat_firstn, all_cat_skipn. exact Oc'. }
    pose proof (whole_in cat managed q ie ce le t c n g ac rl fr zb r Hs Okr) as X. fold s in X.
    revert X. destruct (set_data (length q) (Some r) (ev_rel (EB ie ce le) s)) as [s1| |]; cbn [bind]; [|intros []|intros []].
    destruct (merge_adj managed (length q) (ev_acq r s1)) as [[s2 u]| |]; cbn [bind wp]; [|intros []|intros []].
    intros X. unfold traded. cbn [fst snd]. rewrite Rs, Ro. split.
    + rewrite Ea, El. rewrite Ev in X. rewrite El in X. eapply xstep_imp; [|exact X]. auto.
    + eapply ystep_imp; [exact HX| |exact Y]. auto.
  - apply wp_bind. eapply wp_mono; [exact EX|]. cbn beta. intros [o1 r] (Y & Er & Ev). cbn [fst snd] in *.
    assert (len < zb) as Ll.
    { destruct (Nat.eqb_spec (a - tot q) 0) as [E0|E0]; cbn [andb] in Ew; [|lia]. apply Nat.eqb_neq in Ew. lia. }
    apply wp_bind. eapply wp_mono.
    { apply (take_in_spec cat managed q ie zb ce le t c n g ac rl fr a len r); auto; [congruence|].
      cbn [okd]. rewrite Er, Ev. split; [lens; lia|]. apply all_cat_firstn, all_cat_skipn. exact Oc'. }
    cbn beta. intros s1 X. cbn [wp]. unfold traded. cbn [fst snd]. rewrite Rs, Ro. split.
    + rewrite Ev in X. eapply xstep_imp; [|exact X]. auto.
    + eapply ystep_imp; [exact HX| |exact Y]. auto.
Qed.

Lemma next_of_hole (s0 s : st) Q T a len i :
  hole cat s0 s Q [] T a len -> length Q = S i -> next_pos i s = Ok a.
Proof.
  clear managed. intros H El. pose proof H as (E & _ & _ & _ & W & T1 & _). cbn [app] in E.
  destruct Q as [|x Q _] using rev_ind; [discriminate|]. rewrite last_length in El. injection El as <-.
  unfold next_pos, bat. rewrite E, <- app_assoc. cbn [app]. rewrite nth_error_app_mid. cbn [deref bind].
  apply (wfl_bp cat) in W. cbn [Nat.add] in W. rewrite tot_app in T1. cbn [tot] in T1. f_equal. lia.
Qed.

Lemma swap_single_multi_spec q b t c n g ac rl fr q' b1 m b2 t' c' n' g' ac' rl' fr' a e op :
  let s := ST (q ++ b :: t) c n g ac rl fr in
  let o := ST (q' ++ b1 :: m ++ b2 :: t') c' n' g' ac' rl' fr' in
  let len := e - a + 1 in
  good cat s -> good cat o -> a <= e -> tot q <= a -> e < tot q + bs b ->
  tot q' <= op -> op < tot q' + bs b1 ->
  tot q' + bs b1 + tot m <= op + len - 1 -> op + len - 1 < tot q' + bs b1 + tot m + bs b2 ->
  wp (swap_single_multi managed a e op (length q) (length q') (S (length m + length q')) s o)
     (fun x => xstep cat s (fst x) a len (rows op len o) (canon o) /\
               xstep cat o (snd x) op len (rows a len s) (canon s)).
Proof.
  intros s o len Hs Ho H1 H2 H3 H4 H5 H6 H7.
  assert (0 < len) as Hl by (unfold len; lia). assert (a + len <= tot q + bs b) as H3' by (unfold len; lia).
  assert (bp b = tot q) as Eb by (destruct Hs as (W & _); apply (wfl_bp cat) in W; exact W).
  assert (okb cat b) as Ob by (destruct Hs as (W & _); apply wfl_app in W as [_ W2]; cbn [wfl] in W2; tauto).
  assert (bp b1 = tot q') as E1 by (destruct Ho as (W & _); apply (wfl_bp cat) in W; exact W).
  assert (bp b2 = tot q' + bs b1 + tot m) as E2.
  { destruct Ho as (W & _). unfold o in W. cbn [bl] in W.
    replace (q' ++ b1 :: m ++ b2 :: t') with ((q' ++ b1 :: m) ++ b2 :: t') in W by (rewrite <- app_assoc; reflexivity).
    apply (wfl_bp cat) in W. rewrite tot_app in W. cbn [tot] in W. lia. }
  assert (nth_error (q' ++ b1 :: m ++ b2 :: t') (S (length m + length q')) = Some b2) as N2.
  { change (S (length m + length q')) with (S (length m) + length q'). rewrite nth_off. cbn [nth_error]. apply nth_error_app_mid. }
  unfold swap_single_multi. fold len.
  unfold data_at at 1, pos_at at 1 2 3, bat. unfold s at 1 2, o at 1 2. cbn [bl].
  rewrite !nth_error_app_mid, N2. cbn [deref bind]. rewrite Eb, E1, E2.
  destruct b as [pb zb [eb|]]; cbn [bd bp bs] in *; subst pb.
  2: { assert (rows a len s = repeat None len) as Rs by (apply rows_in_none; auto).
    apply wp_bind. eapply wp_mono.
    { apply (transfer_multi_spec cat managed q' b1 m b2 t'); auto; try lia.
      destruct Hs as (_ & C & _). rewrite C. unfold s. cbn [bl]. rewrite tot_app. cbn [tot bs]. lia. }
    fold o. replace (op + len - 1 - op + 1) with len by lia.
    cbn beta. intros [[o1 s1] k] (M1 & _ & M2). cbn [fst snd] in *. cbn [wp fst snd]. rewrite Rs. split.
    - eapply xstep_of_rstep; [exact Rs|exact M2].
    - eapply xstep_imp; [|exact M1]. auto. }
  assert (rows a len s = map Some (firstn len (skipn (a - tot q) (ev eb)))) as Rs by (apply rows_in_some; auto).
  destruct eb as [ie ce le]. cbn [ecat ev] in *. destruct Ob as [Oz [Ol Oc]]. cbn [bs bd ev ecat] in *.
  unfold size_at, bat. unfold s at 1. cbn [bl]. rewrite nth_error_app_mid. cbn [deref bind bs].
  apply wp_bind. eapply wp_mono.
  { apply (exchange_multi_spec cat managed q' b1 m b2 t' c' n' g' ac' rl' fr' op len (EB ie ce le) (a - tot q)); auto; cbn [ev okd ecat]; auto; lia. }
  fold o. cbn beta. cbn [ev]. intros [o1 nb] (XO & HB). cbn [fst snd] in *.
  rewrite <- Rs in XO.
  assert (xstep cat o o1 op len (rows a len s) (canon s)) as XO' by (eapply xstep_imp; [|exact XO]; auto).
  pose proof HB as (_ & _ & Bne & _).
  destruct (Nat.eqb_spec (length nb) 0) as [En|_]; [destruct nb; [congruence|discriminate]|].
  destruct (Nat.eqb_spec (a - tot q) 0) as [Ez|Ez].
  - assert (a = tot q) as Ea by lia.
    unfold pos_at at 1, bat. unfold s at 1. cbn [bl]. rewrite nth_error_app_mid. cbn [deref bind bp].
    assert (forall s1 : st, (exists T, hole cat s s1 q [] T a len) ->
      wp (let* s0 := insert_blocks_at (tot q) (length q) nb s1 in
          let* (s2, _) := merge_next managed (length q + length nb - 1) s0 in
          let* (s3, _) := (if 0 <? length q then merge_next managed (length q - 1) s2 else Ok (s2, false)) in
          Ok (s3, o1))
        (fun x => xstep cat s (fst x) a len (rows op len o) (canon o) /\ xstep cat o (snd x) op len (rows a len s) (canon s))) as Fin.
    { intros s1 (T & Hh). pose proof (bucket_in cat managed s s1 q T a len nb o op Hh HB) as X. rewrite Ea in X at 1.
      revert X. destruct (insert_blocks_at (tot q) (length q) nb s1) as [x| |]; cbn [bind]; [|intros []|intros []].
      destruct (merge_next managed (length q + length nb - 1) x) as [[y u]| |]; cbn [bind]; [|intros []|intros []].
      destruct (if 0 <? length q then merge_next managed (length q - 1) y else Ok (y, false)) as [[w u']| |]; cbn [bind wp fst snd]; [|intros []|intros []].
      auto. }
    destruct (Nat.eqb_spec (zb - (a - tot q) - len) 0) as [Et|Et].
    + assert (zb = len) as El by lia. apply wp_bind. eapply wp_mono; [apply (cut_whole_spec cat managed q ie zb ce le t c n g ac rl fr); auto|].
      cbn beta. intros s1 Hh. apply Fin. exists t. rewrite Ea, <- El. exact Hh.
    + apply wp_bind. eapply wp_mono; [apply (cut_top_spec cat q ie zb ce le t c n g ac rl fr len); auto; lia|].
      cbn beta. intros s1 (T & Hh). apply Fin. exists T. rewrite Ea. exact Hh.
  - assert (forall s1 : st, (exists Q T, hole cat s s1 Q [] T a len /\ length Q = S (length q)) ->
      wp (let* position := next_pos (length q) s1 in
          let* s0 := insert_blocks_at position (S (length q)) nb s1 in
          let* (s2, _) := merge_next managed (length q + length nb) s0 in
          let* (s3, _) := merge_next managed (length q) s2 in
          Ok (s3, o1))
        (fun x => xstep cat s (fst x) a len (rows op len o) (canon o) /\ xstep cat o (snd x) op len (rows a len s) (canon s))) as Fin.
    { intros s1 (Q & T & Hh & LQ). rewrite (next_of_hole s s1 Q T a len (length q) Hh LQ). cbn [bind].
      pose proof (bucket_in cat managed s s1 Q T a len nb o op Hh HB) as X. rewrite LQ in X.
      cbn [Nat.ltb Nat.leb Nat.sub Nat.add] in X. rewrite !Nat.sub_0_r in X.
      revert X. destruct (insert_blocks_at a (S (length q)) nb s1) as [x| |]; cbn [bind]; [|intros []|intros []].
      destruct (merge_next managed (length q + length nb) x) as [[y u]| |]; cbn [bind]; [|intros []|intros []].
      destruct (merge_next managed (length q) y) as [[w u']| |]; cbn [bind wp fst snd]; [|intros []|intros []].
      auto. }
    destruct (Nat.eqb_spec (zb - (a - tot q) - len) 0) as [Et|Et].
    + apply wp_bind. eapply wp_mono; [apply (cut_bottom_spec cat q ie zb ce le t c n g ac rl fr (a - tot q) len); auto; lia|].
      cbn beta. intros s1 (Q & Hh & LQ). apply Fin. exists Q, t. replace (tot q + (a - tot q)) with a in Hh by lia. auto.
    + apply wp_bind. eapply wp_mono; [apply (cut_mid_spec cat managed q ie zb ce le t c n g ac rl fr (a - tot q) len); auto; lia|].
      cbn beta. intros s1 (Q & T & Hh & LQ). apply Fin. exists Q, T. replace (tot q + (a - tot q)) with a in Hh by lia. auto.
Qed.

Lemma swap_multi_spec q b1 m b2 t c n g ac rl fr q' b1' m' b2' t' c' n' g' ac' rl' fr' a e op :
  let s := ST (q ++ b1 :: m ++ b2 :: t) c n g ac rl fr in
  let o := ST (q' ++ b1' :: m' ++ b2' :: t') c' n' g' ac' rl' fr' in
  let len := e - a + 1 in
  good cat s -> good cat o -> a <= e ->
  tot q <= a -> a < tot q + bs b1 -> tot q + bs b1 + tot m <= e -> e < tot q + bs b1 + tot m + bs b2 ->
  tot q' <= op -> op < tot q' + bs b1' ->
  tot q' + bs b1' + tot m' <= op + len - 1 -> op + len - 1 < tot q' + bs b1' + tot m' + bs b2' ->
  wp (swap_multi managed a e op (length q) (S (length m + length q)) (length q') (S (length m' + length q')) s o)
     (fun x => xstep cat s (fst x) a len (rows op len o) (canon o) /\
               xstep cat o (snd x) op len (rows a len s) (canon s)).
Proof.
  intros s o len Hs Ho H0 H1 H2 H3 H4 H5 H6 H7 H8.
  assert (forall (q : list blk) b1 m b2 t, wfl cat 0 (q ++ b1 :: m ++ b2 :: t) ->
    nth_error (q ++ b1 :: m ++ b2 :: t) (length q) = Some b1 /\ bp b1 = tot q /\
    nth_error (q ++ b1 :: m ++ b2 :: t) (S (length m + length q)) = Some b2 /\ bp b2 = tot q + bs b1 + tot m) as N.
  { clear. intros q b1 m b2 t W. split; [apply nth_error_app_mid|]. split; [apply (wfl_bp cat) in W; exact W|]. split.
    - change (S (length m + length q)) with (S (length m) + length q). rewrite nth_off. cbn [nth_error]. apply nth_error_app_mid.
    - replace (q ++ b1 :: m ++ b2 :: t) with ((q ++ b1 :: m) ++ b2 :: t) in W by (rewrite <- app_assoc; reflexivity).
      apply (wfl_bp cat) in W. rewrite tot_app in W. cbn [tot] in W. lia. }
  destruct (N q b1 m b2 t (proj1 Hs)) as (N1 & P1 & N2 & P2).
  destruct (N q' b1' m' b2' t' (proj1 Ho)) as (N1' & P1' & N2' & P2').
  unfold swap_multi. fold len. unfold pos_at, bat. unfold s at 1 2, o at 1 2. cbn [bl].
  rewrite N1, N2, N1', N2'. cbn [deref bind]. rewrite P1, P2, P1', P2'.
  apply wp_bind. eapply wp_mono; [apply (prepare_spec cat q b1 m b2 t); auto|].
  cbn beta. intros [[s1 sb] si] (Q & T & Hh & HB & Ei). cbn [fst snd] in *. subst si. fold s len in Hh, HB.
  apply wp_bind. eapply wp_mono; [apply (prepare_spec cat q' b1' m' b2' t'); auto|].
  cbn beta. intros [[o1 ob] oi] (Q' & T' & Hh' & HB' & Ei'). cbn [fst snd] in *. subst oi. fold o in Hh', HB'.
  replace (op + len - 1 - op + 1) with len in Hh', HB' by (unfold len; lia).
  apply wp_bind. eapply wp_mono; [apply (put_bucket_spec cat managed s s1 Q T a len ob o op Hh HB')|]. cbn beta. intros s2 X.
  apply wp_bind. eapply wp_mono; [apply (put_bucket_spec cat managed o o1 Q' T' op len sb s a Hh' HB)|]. cbn beta. intros o2 X2.
  cbn [wp fst snd]. auto.
Qed.

Lemma swap_range_spec (s o : st) a e op :
  good cat s -> good cat o -> a <= e -> e < cs s -> op + (e - a + 1) <= cs o ->
  wp (swap_range cat managed a e op s o) (traded s o a (e - a + 1) op).
Proof.
  intros Hs Ho H1 H2 H3. set (len := e - a + 1).
  destruct s as [l c n g ac rl fr]. destruct o as [l' c' n' g' ac' rl' fr'].
  pose proof Hs as (W & C & _). pose proof Ho as (W' & C' & _). cbn [bl cs] in *.
  unfold swap_range. cbn [cs].
  destruct (Nat.ltb_spec e a) as [X|_]; [lia|].
  destruct (Nat.leb_spec c e) as [X|_]; [lia|].
  destruct (Nat.leb_spec c' (op + e - a)) as [X|_]; [lia|]. cbn [orb].
  assert (forall (l : list blk) c n g ac rl fr x y, wfl cat 0 l -> c = tot l -> x <= y -> y < c ->
    (exists q b t, l = q ++ b :: t /\ tot q <= x /\ y < tot q + bs b /\
        block_pos x 0 (ST l c n g ac rl fr) = Ok (length q) /\ block_pos y (length q) (ST l c n g ac rl fr) = Ok (length q) /\
        length q <> length l) \/
    (exists q b1 m b2 t, l = q ++ b1 :: m ++ b2 :: t /\ tot q <= x /\ x < tot q + bs b1 /\
        tot q + bs b1 + tot m <= y /\ y < tot q + bs b1 + tot m + bs b2 /\
        block_pos x 0 (ST l c n g ac rl fr) = Ok (length q) /\
        block_pos y (length q) (ST l c n g ac rl fr) = Ok (S (length m + length q)) /\
        length q <> length l /\ S (length m + length q) <> length l)) as Loc.
  { clear. intros l c n g ac rl fr x y W C H1 H2.
    destruct (find_two cat 0 l x y W) as [(q & b & t & -> & L1 & L2)|(q & b1 & m & b2 & t & -> & L1 & L2 & L3 & L4)]; try lia.
    - left. exists q, b, t. cbn [Nat.add] in L1, L2. split; [reflexivity|]. split; [lia|]. split; [lia|].
      pose proof (block_pos_spec cat [] q b t c n g ac rl fr x) as B. cbn [app length] in B.
      pose proof (block_pos_spec cat q [] b t c n g ac rl fr y) as B'. rewrite app_nil_r in B'.
      split; [apply B; auto; lia|]. split; [apply B'; auto; lia|]. rewrite app_length. cbn [length]. lia.
    - right. exists q, b1, m, b2, t. cbn [Nat.add] in L1, L2, L3, L4. split; [reflexivity|].
      split; [lia|]. split; [lia|]. split; [lia|]. split; [lia|].
      pose proof (block_pos_spec cat [] q b1 (m ++ b2 :: t) c n g ac rl fr x) as B. cbn [app length] in B.
      pose proof (block_pos_spec cat q (b1 :: m) b2 t c n g ac rl fr y) as B'.
      rewrite <- app_assoc in B'. cbn [app] in B'.
      assert (length (q ++ b1 :: m) = S (length m + length q)) as El by (rewrite app_length; cbn [length]; lia).
      rewrite El in B'.
      split; [apply B; auto; lia|]. split; [apply B'; auto; rewrite tot_app; cbn [tot]; lia|].
      rewrite !app_length. cbn [length]. rewrite app_length. cbn [length]. lia. }
  assert (forall (l : list blk) i, i <> length l -> (i =? length l) = false) as Ne by (intros; now apply Nat.eqb_neq).
  unfold nblk. cbn [bl]. unfold swap_impl.
  destruct (Loc l c n g ac rl fr a e W C H1 H2) as [(q & b & t & -> & L1 & L2 & B1 & B2 & B3)|(q & b1 & m & b2 & t & -> & L1 & L2 & L3 & L4 & B1 & B2 & B3 & B4)].
  all: destruct (Loc l' c' n' g' ac' rl' fr' op (op + e - a) W' C' ltac:(lia) ltac:(lia))
    as [(q' & b' & t' & -> & L1' & L2' & B1' & B2' & B3')|(q' & b1' & m' & b2' & t' & -> & L1' & L2' & L3' & L4' & B1' & B2' & B3' & B4')].
  all: rewrite B1; cbn [bind]; rewrite (Ne _ _ B3), B2; cbn [bind].
  - rewrite (Ne _ _ B3), B1'. cbn [bind]. rewrite (Ne _ _ B3'), B2'. cbn [bind]. rewrite (Ne _ _ B3').
    rewrite !Nat.eqb_refl. apply swap_single_spec; auto; lia.
  - rewrite (Ne _ _ B3), B1'. cbn [bind]. rewrite (Ne _ _ B3'), B2'. cbn [bind]. rewrite (Ne _ _ B4').
    rewrite Nat.eqb_refl. destruct (Nat.eqb_spec (length q') (S (length m' + length q'))) as [X|_]; [lia|].
    eapply wp_mono; [apply swap_single_multi_spec; auto; fold len; unfold len; lia|]. fold len. cbn beta. intros [s1 o1] [X Y].
    split; [exact X|]. cbn [snd] in *. eapply ystep_of; [|exact Y]. auto.
  - rewrite (Ne _ _ B4), B1'. cbn [bind]. rewrite (Ne _ _ B3'), B2'. cbn [bind]. rewrite (Ne _ _ B3').
    rewrite Nat.eqb_refl. destruct (Nat.eqb_spec (length q) (S (length m + length q))) as [X|_]; [lia|].
    fold len. apply wp_bind. eapply wp_mono; [apply (swap_single_multi_spec q' b' t' c' n' g' ac' rl' fr' q b1 m b2 t); auto; unfold len; lia|].
    replace (op + len - 1 - op + 1) with len by (unfold len; lia). cbn beta. intros [o1 s1] [X Y]. cbn [fst snd wp] in *.
    split; [exact Y|]. cbn [snd]. eapply ystep_of; [|exact X]. auto.
  - rewrite (Ne _ _ B4), B1'. cbn [bind]. rewrite (Ne _ _ B3'), B2'. cbn [bind]. rewrite (Ne _ _ B4').
    destruct (Nat.eqb_spec (length q) (S (length m + length q))) as [X|_]; [lia|].
    destruct (Nat.eqb_spec (length q') (S (length m' + length q'))) as [X|_]; [lia|].
    eapply wp_mono; [apply swap_multi_spec; auto; fold len; unfold len; lia|]. fold len. cbn beta. intros [s1 o1] [X Y].
    split; [exact X|]. cbn [snd] in *. eapply ystep_of; [|exact Y]. auto.
Qed.

Lemma swap_range_out (s o : st) a e op :
  e < a \/ cs s <= e \/ cs o < op + (e - a + 1) ->
  swap_range cat managed a e op s o = Throw E_out_of_range.
Proof.
  intros H. unfold swap_range. destruct (Nat.ltb_spec e a) as [X|X]; [reflexivity|].
  destruct (Nat.leb_spec (cs s) e) as [Y|Y]; [reflexivity|].
  destruct (Nat.leb_spec (cs o) (op + e - a)) as [Z|Z]; [reflexivity|lia].
Qed.
End P.
