(** multi_type_vector: reachable containers, sequences of calls, hints, position
    objects, comparison. *)
From Coq Require Import List ZArith Lia Bool.
From Verif Require Import Base MtvModel MtvModel2 MtvXfer MtvSpec MtvProofs MtvWrap MtvAppend MtvBridge MtvXferHole MtvXferProofs MtvSwapExch MtvSwapMain.
Import ListNotations.

Section P.
Set Default Proof Using "Type".
Context {V : Type}.
Variable cat : V -> nat.
Variable managed : nat -> bool.
Variable dup : V -> V.
Variable copyable : nat -> bool.
Hypothesis Hdup : forall v, cat (dup v) = cat v.
Notation eblk := (@eblk V).
Notation blk := (@blk V).
Notation st := (@st V).
Notation op := (@op V).
Notation reach := (@reach V cat managed dup copyable).

(** A call on two containers that returns was within both of them. *)
Lemma transfer_ok (s d : st) h a b dp s' d' i :
  good cat s -> good cat d -> transfer managed h a b dp s d = Ok (s', d', i) ->
  (a <= b /\ b < cs s /\ dp + (b - a + 1) <= cs d) /\ moved cat managed s d a (b - a + 1) dp (s', d', i).
Proof.
  intros Hs Hd E.
  destruct (Nat.le_gt_cases a b) as [L1|L1]; [destruct (Nat.lt_ge_cases b (cs s)) as [L2|L2];
    [destruct (Nat.le_gt_cases (dp + (b - a + 1)) (cs d)) as [L3|L3]|]|].
  { split; [auto|]. pose proof (transfer_spec cat managed s d h a b dp Hs Hd L1 L2 L3) as W. rewrite E in W. exact W. }
  all: exfalso; destruct (Nat.eq_dec (nblk s) 0) as [N|N];
    [|rewrite (transfer_out cat managed s d h a b dp) in E by (auto; lia); discriminate].
  all: destruct h as [h|]; [|rewrite (transfer_out cat managed s d None a b dp) in E by (auto; lia); discriminate].
  all: unfold transfer in E; rewrite locate_hint_empty in E by auto; discriminate.
Qed.

Lemma swap_ok (s o : st) a b p s' o' :
  good cat s -> good cat o -> swap_range cat managed a b p s o = Ok (s', o') ->
  (a <= b /\ b < cs s /\ p + (b - a + 1) <= cs o) /\ traded cat managed s o a (b - a + 1) p (s', o').
Proof.
  intros Hs Ho E.
  destruct (Nat.le_gt_cases a b) as [L1|L1]; [destruct (Nat.lt_ge_cases b (cs s)) as [L2|L2];
    [destruct (Nat.le_gt_cases (p + (b - a + 1)) (cs o)) as [L3|L3]|]|].
  { split; [auto|]. pose proof (swap_range_spec cat managed s o a b p Hs Ho L1 L2 L3) as W. rewrite E in W. exact W. }
  all: exfalso; rewrite (swap_range_out cat managed s o a b p) in E by lia; discriminate.
Qed.

Lemma reach_good A s : reach A s -> good cat s.
Proof using Hdup.
  induction 1 as [g n|g n v H|g n vs s H H0|g s s' H IH H0|s l o s' H IH H1 H2 H3 H4
    |s d h a b dp s' d' i H IH H0 IH0 H1|s d h a b dp s' d' i H IH H0 IH0 H1
    |s o a b p s' o' H IH H0 IH0 H1|s o a b p s' o' H IH H0 IH0 H1].
  - apply good_init.
  - apply good_fill.
  - eapply good_range; eauto.
  - eapply (copy_spec cat dup); eauto.
  - apply (shows_eq cat) in H1; auto. subst l.
    pose proof (exec_spec cat managed o s IH H2) as He.
    destruct (spec o (flat s)); rewrite H4 in He; [|discriminate].
    cbn [wp] in He. apply He.
  - apply transfer_ok in H1 as (_ & X & _); auto. apply X.
  - apply transfer_ok in H1 as (_ & _ & _ & X); auto. apply X.
  - apply swap_ok in H1 as (_ & X & _); auto. apply X.
  - apply swap_ok in H1 as (_ & _ & X); auto. apply X.
Qed.

Lemma reach_canon (A : list (option V) -> op -> Prop) s :
  (forall l o, A l o -> ~ unmerged cat l o) -> reach A s -> canon s.
Proof using Hdup.
  intros HA.
  induction 1 as [g n|g n v H|g n vs s H H0|g s s' H IH H0|s l o s' H IH H1 H2 H3 H4
    |s d h a b dp s' d' i H IH H0 IH0 H1|s d h a b dp s' d' i H IH H0 IH0 H1
    |s o a b p s' o' H IH H0 IH0 H1|s o a b p s' o' H IH H0 IH0 H1].
  - apply canon_init.
  - apply good_fill.
  - eapply good_range; eauto.
  - eapply (copy_spec cat dup); eauto. eapply reach_good; eauto.
  - assert (good cat s) as Hg by (eapply reach_good; eauto).
    apply (shows_eq cat) in H1; auto. subst l.
    pose proof (exec_spec cat managed o s Hg H2) as He.
    destruct (spec o (flat s)); rewrite H4 in He; [|discriminate].
    cbn [wp] in He. apply He; auto.
  - apply reach_good in H, H0. apply transfer_ok in H1 as (_ & X & _); auto. apply X; auto.
  - apply reach_good in H, H0. apply transfer_ok in H1 as (_ & _ & _ & X); auto. apply X; auto.
  - apply reach_good in H, H0. apply swap_ok in H1 as (_ & X & _); auto. apply X; auto.
  - apply reach_good in H, H0. apply swap_ok in H1 as (_ & _ & X); auto. apply X; auto.
Qed.

Lemma reach_shows A s : reach A s -> exists l, shows s l.
Proof using Hdup. intros H. exists (flat s). apply (shows_flat cat). eapply reach_good; eauto. Qed.

Lemma refines A s l o :
  reach A s -> shows s l -> legal cat managed o l -> A l o ->
  match spec o l with
  | Some l' => exists s', exec cat managed o s = Ok s' /\ reach A s' /\ shows s' l'
  | None => exec cat managed o s = Throw E_out_of_range
  end.
Proof using Hdup.
  intros H1 H2 H3 H4. pose proof (reach_good _ _ H1) as Hg.
  pose proof (shows_eq cat s l Hg H2) as El. rewrite El in *.
  pose proof (exec_spec cat managed o s Hg H3) as He.
  destruct (spec o (flat s)) as [l'|]; [|exact He].
  apply wp_ok in He as (s' & E & He). exists s'. split; [exact E|]. split.
  - eapply r_step; eauto.
  - destruct He as (Hg' & <- & _). now apply (shows_flat cat).
Qed.

Lemma run_refines os s l :
  reach (anyop) s -> shows s l -> legal_all cat managed os l ->
  exists s', run cat managed os s = Ok s' /\ reach anyop s' /\ shows s' (run_spec os l).
Proof using Hdup.
  revert s l; induction os as [|o os IH]; intros s l H1 H2; cbn [legal_all run run_spec].
  - intros _. eauto.
  - intros [H3 H4]. pose proof (refines _ s l o H1 H2 H3 I) as H.
    destruct (spec o l) as [l'|].
    + destruct H as (s' & E & R & S'). rewrite E. eauto.
    + rewrite H. eauto.
Qed.

Lemma run_refines_bad (bad : list (option V) -> op -> Prop) os s l :
  reach (fun l o => ~ bad l o) s -> shows s l -> legal_all cat managed os l -> none_bad bad os l ->
  exists s', run cat managed os s = Ok s' /\ reach (fun l o => ~ bad l o) s' /\ shows s' (run_spec os l).
Proof using Hdup.
  revert s l; induction os as [|o os IH]; intros s l H1 H2; cbn [legal_all none_bad run run_spec].
  - intros _ _. eauto.
  - intros [H3 H4] [H5 H6]. pose proof (refines _ s l o H1 H2 H3 H5) as H.
    destruct (spec o l) as [l'|].
    + destruct H as (s' & E & R & S'). rewrite E. eauto.
    + rewrite H. eauto.
Qed.

(** ** Looking up replaced ranges *)

Lemma nth_splice {A} (a n : nat) (x l : list A) j :
  a + n <= length l ->
  nth_error (splice a n x l) j =
    if j <? a then nth_error l j
    else if j <? a + length x then nth_error x (j - a)
    else nth_error l (j - length x + n).
Proof.
  intros H. unfold splice.
  destruct (Nat.ltb_spec j a) as [L|L].
  - rewrite nth_error_app1 by (rewrite firstn_length; lia).
    revert j l L H. clear. induction a as [|a IH]; intros j l L H; [lia|].
    destruct l as [|y l]; [simpl in H; lia|]. destruct j as [|j]; cbn; [reflexivity|].
    apply IH; simpl in H; lia.
  - rewrite nth_error_app2 by (rewrite firstn_length; lia).
    rewrite firstn_length, Nat.min_l by lia.
    destruct (Nat.ltb_spec j (a + length x)) as [L1|L1].
    + rewrite nth_error_app1 by lia. reflexivity.
    + rewrite nth_error_app2 by lia.
      replace (j - length x + n) with ((a + n) + (j - a - length x)) by lia.
      generalize (j - a - length x) as k. intros k. clear.
      generalize (a + n) as m. intros m. revert l; induction m as [|m IH]; intros l; [reflexivity|].
      destruct l as [|y l]; cbn [skipn Nat.add nth_error]; [now destruct k|]. apply IH.
Qed.

Lemma get_splice (s s' : st) a n x :
  good cat s -> good cat s' -> flat s' = splice a n x (flat s) -> a + n <= cs s ->
  forall j, get j s' = if j <? a then get j s
                       else if j <? a + length x
                       then match nth_error x (j - a) with Some y => Ok y | None => Undef end
                       else get (j - length x + n) s.
Proof.
  intros Hg Hg' E Hn j. rewrite (get_eq cat s' j Hg'), E, nth_splice by (rewrite (len_flat cat); auto).
  destruct (Nat.ltb_spec j a) as [L|L]; [symmetry; now apply (get_eq cat)|].
  destruct (Nat.ltb_spec j (a + length x)) as [L1|L1]; [|symmetry; now apply (get_eq cat)].
  destruct (nth_error x (j - a)) eqn:Ex; [reflexivity|]. apply nth_error_None in Ex. lia.
Qed.

Lemma size_splice (s s' : st) a n x :
  good cat s -> good cat s' -> flat s' = splice a n x (flat s) -> a + n <= cs s ->
  size s' = size s - n + length x.
Proof.
  intros Hg Hg' E Hn. unfold size.
  rewrite <- (len_flat cat s' Hg'), E. unfold splice.
  rewrite !app_length, firstn_length, skipn_length, (len_flat cat s Hg). lia.
Qed.

Lemma in_at (s : st) i pos : at_pos s i pos -> in_block s i pos.
Proof.
  intros (b & E & H). exists (dcat (bd b)), (bp b), (bs b). unfold block. rewrite E. auto.
Qed.

Lemma get_type_eq (s : st) i :
  good cat s ->
  get_type i s = let* x := get i s in Ok (option_map cat x).
Proof.
  intros Hg. rewrite (get_eq cat s i Hg). destruct (Nat.lt_ge_cases i (cs s)) as [L|L].
  - destruct (get_type_spec cat s i Hg L) as (x & E1 & E2 & _). now rewrite E1, E2.
  - rewrite <- (len_flat cat s Hg) in L. apply nth_error_None in L as E. rewrite E.
    unfold get_type. rewrite locate_none; [reflexivity|]. now rewrite <- (len_flat cat s Hg).
Qed.

Lemma is_empty_eq (s : st) i :
  good cat s ->
  is_empty i s = let* x := get i s in Ok (match x with None => true | Some _ => false end).
Proof.
  intros Hg. rewrite (get_eq cat s i Hg). destruct (Nat.lt_ge_cases i (cs s)) as [L|L].
  - destruct (get_type_spec cat s i Hg L) as (x & E1 & _ & E2). now rewrite E1, E2.
  - rewrite <- (len_flat cat s Hg) in L. apply nth_error_None in L as E. rewrite E.
    unfold is_empty. rewrite locate_none; [reflexivity|]. now rewrite <- (len_flat cat s Hg).
Qed.

(** ** Hints *)

Lemma locate_hint_any (s : st) h pos :
  good cat s -> 0 < cs s -> locate (Some h) pos s = locate None pos s.
Proof.
  intros Hg H0. destruct (Nat.lt_ge_cases pos (cs s)) as [L|L].
  - destruct s as [l c n g a r f]. pose proof Hg as (Hw & Hc & _). cbn [bl cs] in *.
    destruct (find_block cat 0 l pos Hw ltac:(lia)) as (q & b & t & E & H). subst l.
    rewrite !(locate_spec cat _ q b t c n g a r f pos) by auto. reflexivity.
  - rewrite locate_none by auto. apply (locate_out cat); auto. right. now apply (nblk_pos cat).
Qed.

Lemma set_range_hint (s : st) h pos vs :
  good cat s ->
  set_range cat managed (Some h) pos vs s = set_range cat managed None pos vs s.
Proof.
  intros Hg. unfold set_range. destruct vs as [|v0 vs]; [reflexivity|].
  destruct (Nat.leb_spec (cs s) (pos + length (v0 :: vs) - 1)) as [L|L]; [reflexivity|].
  f_equal. simpl in L.
  destruct s as [l c n g a r f]. pose proof Hg as (Hw & Hc & _). cbn [bl cs] in *.
  destruct (find_block cat 0 l pos Hw ltac:(lia)) as (q & b & t & E & H). subst l.
  rewrite (locate_spec cat _ q b t c n g a r f pos) by auto.
  rewrite (block_pos_hint_spec cat _ q b t c n g a r f pos) by auto. reflexivity.
Qed.

(** ** Position objects *)

Lemma position_at (s : st) h pos :
  good cat s -> pos < cs s ->
  exists q b t, bl s = q ++ b :: t /\ tot q <= pos < tot q + bs b /\ bp b = tot q /\
    position h pos s = Ok (length q, pos - tot q).
Proof.
  intros Hg Hp. destruct (locate_in cat s h pos Hg Hp) as (q & b & t & E1 & E2 & E3).
  exists q, b, t. split; [exact E1|]. split; [exact E2|].
  assert (bp b = tot q) as Hb.
  { destruct Hg as (Hw & _). rewrite E1 in Hw. now apply wfl_bp in Hw. }
  split; [exact Hb|]. unfold position. destruct (Nat.eqb_spec pos (cs s)); [lia|].
  rewrite E3. cbn [bind]. unfold pos_at, bat. rewrite E1, nth_error_app_mid. cbn [deref bind].
  now rewrite Hb.
Qed.

Lemma position_end (s : st) h : position h (cs s) s = Ok (nblk s, 0).
Proof. unfold position. now rewrite Nat.eqb_refl. Qed.

Lemma size_at_mid (s : st) q b t : bl s = q ++ b :: t -> size_at (length q) s = Ok (bs b).
Proof. intros E. unfold size_at, bat. now rewrite E, nth_error_app_mid. Qed.

(** The position object of a row, described by the blocks around it. *)
Definition pobj (s : st) (i k row : nat) : Prop :=
  (exists q b t, bl s = q ++ b :: t /\ i = length q /\ k < bs b /\ row = tot q + k)
  \/ (i = nblk s /\ k = 0 /\ row = cs s).

Lemma pobj_position (s : st) h i k row :
  good cat s -> pobj s i k row -> position h row s = Ok (i, k).
Proof.
  intros Hg [(q & b & t & E & -> & Hk & ->)|(-> & -> & ->)].
  - destruct s as [l c n g a r f]. pose proof Hg as (Hw & Hc & _). cbn [bl cs] in *. subst l.
    unfold position. cbn [cs]. rewrite tot_app in Hc. cbn [tot] in Hc.
    destruct (Nat.eqb_spec (tot q + k) c); [lia|].
    rewrite (locate_spec cat h q b t c n g a r f (tot q + k));
      [|auto|cbn [bl]; rewrite tot_app; cbn [tot]; lia|lia].
    cbn [bind]. unfold pos_at, bat. cbn [bl]. rewrite nth_error_app_mid. cbn [deref bind].
    apply wfl_bp in Hw. rewrite Hw. cbn [Nat.add]. do 2 f_equal. lia.
  - apply position_end.
Qed.

Lemma position_pobj (s : st) h i k row :
  good cat s -> row <= cs s -> position h row s = Ok (i, k) -> pobj s i k row.
Proof.
  intros Hg Hr E. destruct (Nat.eq_dec row (cs s)) as [->|Hn].
  - rewrite position_end in E. injection E as <- <-. right. auto.
  - destruct (position_at s h row Hg ltac:(lia)) as (q & b & t & E1 & E2 & E3 & E4).
    rewrite E4 in E. injection E as <- <-. left. exists q, b, t. repeat split; auto; lia.
Qed.

Lemma next_block (s : st) q b t : bl s = q ++ b :: t -> cs s = tot (bl s) -> good cat s ->
  pobj s (S (length q)) 0 (tot q + bs b).
Proof.
  intros E Hc (Hw & _). destruct t as [|b' t].
  - right. unfold nblk. rewrite Hc, E, app_length, tot_app. cbn [length tot]. repeat split; lia.
  - left. exists (q ++ [b]), b', t. rewrite <- app_assoc. cbn [app]. split; [exact E|].
    rewrite app_length, tot_app. cbn [length tot].
    rewrite E in Hw. apply wfl_app in Hw as [_ Hw]. cbn [wfl] in Hw. destruct Hw as (_ & _ & _ & [Hz _] & _).
    repeat split; lia.
Qed.

Lemma next_spec (s : st) i k row :
  good cat s -> pobj s i k row -> row < cs s ->
  exists i' k', next_position (i, k) s = Ok (i', k') /\ pobj s i' k' (S row).
Proof.
  intros Hg [(q & b & t & E & -> & Hk & ->)|(-> & -> & ->)] Hr; [|lia].
  pose proof Hg as (_ & Hc & _).
  unfold next_position. rewrite (size_at_mid s q b t E). cbn [bind].
  destruct (Nat.ltb_spec (k + 1) (bs b)) as [L|L].
  - exists (length q), (S k). split; [reflexivity|]. left. exists q, b, t. repeat split; auto; lia.
  - exists (S (length q)), 0. split; [reflexivity|].
    replace (S (tot q + k)) with (tot q + bs b) by lia. now apply (next_block s q b t).
Qed.

Lemma advance_fwd_spec (s : st) fuel i k row n :
  good cat s -> pobj s i k row -> row + n <= cs s -> n <= fuel ->
  exists i' k', advance_fwd fuel i k n s = Ok (i', k') /\ pobj s i' k' (row + n).
Proof.
  intros Hg. pose proof Hg as (_ & Hc & _).
  revert i k row n; induction fuel as [|fuel IH]; intros i k row n Hp Hr Hf.
  - replace n with 0 by lia. exists i, k. cbn. rewrite Nat.add_0_r. auto.
  - destruct n as [|n]; [exists i, k; cbn; rewrite Nat.add_0_r; auto|].
    cbn [advance_fwd]. destruct Hp as [(q & b & t & E & -> & Hk & ->)|(-> & -> & ->)]; [|lia].
    rewrite (size_at_mid s q b t E). cbn [bind].
    destruct (Nat.ltb_spec (k + S n) (bs b)) as [L|L].
    + exists (length q), (k + S n). split; [reflexivity|]. left. exists q, b, t. repeat split; auto; lia.
    + destruct (Nat.ltb_spec (bs b) k) as [L1|L1]; [lia|].
      destruct (IH (S (length q)) 0 (tot q + bs b) (S n - (bs b - k))) as (i' & k' & E1 & E2);
        [now apply (next_block s q b t)|lia|lia|].
      exists i', k'. split; [exact E1|].
      replace (tot q + k + S n) with (tot q + bs b + (S n - (bs b - k))) by lia. exact E2.
Qed.

Lemma prev_block (s : st) i k row : good cat s -> pobj s (S i) k row ->
  exists q b t, bl s = q ++ b :: t /\ length q = i /\ row = tot q + bs b + k /\ 0 < bs b.
Proof.
  intros Hg Hp. pose proof Hg as (_ & Hc & _).
  destruct Hp as [(q & b & t & E & E1 & Hk & ->)|(E1 & -> & ->)].
  - destruct q as [|b' q _] using rev_ind; [discriminate|].
    rewrite app_length in E1. cbn [length] in E1. rewrite <- app_assoc in E. cbn [app] in E.
    exists q, b', (b :: t). rewrite tot_app. cbn [tot]. repeat split; auto; try lia.
    eapply (block_sizes cat); eauto.
  - unfold nblk in E1. destruct (bl s) as [|b' q _] eqn:E using rev_ind; [discriminate|].
    rewrite app_length in E1. cbn [length] in E1.
    exists q, b', []. rewrite Hc, tot_app. cbn [tot]. repeat split; auto; try lia.
    eapply (block_sizes cat); eauto.
Qed.

Lemma advance_bwd_spec (s : st) fuel i k row n :
  good cat s -> pobj s i k row -> n <= row -> n <= fuel ->
  exists i' k', advance_bwd fuel i k n s = Ok (i', k') /\ pobj s i' k' (row - n).
Proof.
  intros Hg. pose proof Hg as (_ & Hc & _).
  revert i k row n; induction fuel as [|fuel IH]; intros i k row n Hp Hr Hf.
  - replace n with 0 by lia. exists i, k. cbn. rewrite Nat.sub_0_r. auto.
  - destruct n as [|n]; [exists i, k; cbn; rewrite Nat.sub_0_r; auto|].
    cbn [advance_bwd]. destruct (Nat.leb_spec (S n) k) as [L|L].
    + exists i, (k - S n). split; [reflexivity|].
      destruct Hp as [(q & b & t & E & -> & Hk & ->)|(-> & -> & ->)]; [|lia].
      left. exists q, b, t. repeat split; auto; lia.
    + destruct i as [|i].
      { exfalso. destruct Hp as [(q & b & t & E & E1 & Hk & ->)|(E1 & -> & ->)].
        - destruct q; [cbn [tot] in Hr; lia|discriminate].
        - unfold nblk in E1. rewrite Hc in Hr. destruct (bl s); [cbn [tot] in Hr; lia|discriminate]. }
      destruct (prev_block s i k row Hg Hp) as (q & b & t & E & <- & -> & Hz).
      rewrite (size_at_mid s q b t E). cbn [bind]. destruct (bs b) as [|z] eqn:Ez; [lia|].
      destruct (IH (length q) z (tot q + z) (S n - (k + 1))) as (i' & k' & E1 & E2); [|lia|lia|].
      { left. exists q, b, t. repeat split; auto; lia. }
      exists i', k'. split; [exact E1|].
      replace (tot q + S z + k - S n) with (tot q + z - (S n - (k + 1))) by lia. exact E2.
Qed.

Lemma advance_spec (s : st) h i k row d :
  good cat s -> row <= cs s -> position h row s = Ok (i, k) ->
  (0 <= Z.of_nat row + d <= Z.of_nat (cs s))%Z ->
  advance_position (i, k) d s = position None (Z.to_nat (Z.of_nat row + d)) s.
Proof.
  intros Hg Hr Hp Hd. apply position_pobj in Hp; auto.
  unfold advance_position. destruct (Z.ltb_spec 0 d) as [L|L].
  - destruct (advance_fwd_spec s (S (Z.abs_nat d)) i k row (Z.abs_nat d) Hg Hp ltac:(lia) ltac:(lia))
      as (i' & k' & E1 & E2).
    rewrite E1. symmetry. apply pobj_position; auto.
    replace (Z.to_nat (Z.of_nat row + d)) with (row + Z.abs_nat d) by lia. exact E2.
  - destruct (advance_bwd_spec s (S (Z.abs_nat d)) i k row (Z.abs_nat d) Hg Hp ltac:(lia) ltac:(lia))
      as (i' & k' & E1 & E2).
    rewrite E1. symmetry. apply pobj_position; auto.
    replace (Z.to_nat (Z.of_nat row + d)) with (row - Z.abs_nat d) by lia. exact E2.
Qed.

Lemma next_position_spec (s : st) h i k row :
  good cat s -> row < cs s -> position h row s = Ok (i, k) ->
  next_position (i, k) s = position None (S row) s.
Proof.
  intros Hg Hr Hp. apply position_pobj in Hp; [|auto|lia].
  destruct (next_spec s i k row Hg Hp Hr) as (i' & k' & E1 & E2).
  rewrite E1. symmetry. now apply pobj_position.
Qed.

Lemma logical_spec (s : st) h i k row :
  good cat s -> row < cs s -> position h row s = Ok (i, k) ->
  logical_position (i, k) s = Ok row /\ in_block s i row.
Proof.
  intros Hg Hr Hp. destruct (position_at s h row Hg Hr) as (q & b & t & E1 & E2 & E3 & E4).
  rewrite E4 in Hp. injection Hp as <- <-. unfold logical_position, pos_at, bat, in_block, block.
  cbn [fst snd]. rewrite E1, nth_error_app_mid. cbn [deref bind]. split; [f_equal; lia|].
  do 3 eexists. split; [reflexivity|]. lia.
Qed.

Lemma get_at_spec (s : st) h i k row v :
  good cat s -> row < cs s -> position h row s = Ok (i, k) -> get row s = Ok (Some v) ->
  get_at (i, k) s = Ok v.
Proof.
  intros Hg Hr Hp He. destruct (position_at s h row Hg Hr) as (q & b & t & E1 & E2 & E3 & E4).
  rewrite E4 in Hp. injection Hp as <- <-.
  unfold get_at, edata, data_at, bat. cbn [fst snd]. rewrite E1, nth_error_app_mid. cbn [deref bind].
  rewrite (get_eq cat s row Hg) in He. unfold flat in He. rewrite E1, flatl_app, flatl_cons in He.
  pose proof Hg as (Hw & _). rewrite E1 in Hw. apply wfl_app in Hw as [Hq Hw].
  cbn [wfl] in Hw. destruct Hw as (_ & Hok & _).
  apply flatl_length in Hq. pose proof (flatb_length cat b Hok) as Hb.
  rewrite nth_error_app2, nth_error_app1 in He by lia. rewrite Hq in He.
  unfold flatb in He. destruct (bd b) as [e|].
  - cbn [deref bind]. rewrite nth_error_map in He.
    destruct (nth_error (ev e) (row - tot q)); cbn in He; [|discriminate]. now injection He as ->.
  - rewrite nth_error_repeat in He by lia. discriminate.
Qed.

(** ** Comparison *)

Section Eq.
Variable veq : V -> V -> bool.
Hypothesis Hveq : forall x y, veq x y = true <-> x = y.

Lemma list_eqb_ok l1 l2 : list_eqb veq l1 l2 = true <-> l1 = l2.
Proof using Hveq.
  clear managed Hdup dup copyable.
  revert l2; induction l1 as [|x l1 IH]; intros [|y l2]; cbn; try (split; congruence).
  rewrite andb_true_iff, Hveq, IH. split; [intros [-> ->]; reflexivity|intros [= -> ->]; auto].
Qed.

Lemma nats_eqb_ok l1 l2 : nats_eqb l1 l2 = true <-> l1 = l2.
Proof.
  clear managed Hdup dup copyable.
  revert l2; induction l1 as [|x l1 IH]; intros [|y l2]; cbn; try (split; congruence).
  rewrite andb_true_iff, Nat.eqb_eq, IH. split; [intros [-> ->]; reflexivity|intros [= -> ->]; auto].
Qed.

Definition same_data (d1 d2 : option eblk) : Prop :=
  option_map (fun e => (ecat e, ev e)) d1 = option_map (fun e => (ecat e, ev e)) d2.

Lemma data_eqb_ok d1 d2 : data_eqb veq d1 d2 = true <-> same_data d1 d2.
Proof using Hveq.
  clear managed Hdup dup copyable.
  unfold same_data. destruct d1 as [e1|], d2 as [e2|]; cbn; try (split; congruence).
  rewrite andb_true_iff, Nat.eqb_eq, list_eqb_ok.
  split; [intros [-> ->]; reflexivity|intros [= -> ->]; auto].
Qed.

Definition bsig (b : blk) : nat * nat * option (nat * list V) :=
  (bp b, bs b, option_map (fun e => (ecat e, ev e)) (bd b)).

Lemma eq_mtv_sig (a b : st) :
  eq_mtv veq a b = true <-> cs a = cs b /\ map bsig (bl a) = map bsig (bl b).
Proof using Hveq.
  clear managed Hdup dup copyable.
  unfold eq_mtv. rewrite !andb_true_iff, !Nat.eqb_eq, !nats_eqb_ok.
  split.
  - intros (H1 & H2 & (H3 & H4) & H5). split; [exact H1|].
    clear H1. revert H2 H3 H4 H5. generalize (bl a) (bl b).
    induction l as [|x l IH]; intros [|y l']; cbn; try congruence.
    intros [= E1 E2] [= E3 E4] [= E5]. rewrite andb_true_iff, data_eqb_ok. intros [E6 E7].
    f_equal; [|now apply IH]. unfold bsig, same_data in *. congruence.
  - intros [H1 H2]. split; [exact H1|]. clear H1.
    revert H2. generalize (bl a) (bl b).
    induction l as [|x l IH]; intros [|y l']; cbn; try congruence; [auto|].
    intros H. injection H as E1 E2 E3 E4. destruct (IH _ E4) as (H1 & (H2 & H3) & H4).
    rewrite andb_true_iff, data_eqb_ok. unfold same_data. repeat split; try congruence.
Qed.

(** The content determines the blocks when neighbours differ. *)
Lemma flatl_sig_inj l1 l2 p :
  wfl cat p l1 -> wfl cat p l2 -> chain Rne (map bcat l1) -> chain Rne (map bcat l2) ->
  flatl l1 = flatl l2 -> map bsig l1 = map bsig l2.
Proof.
  clear managed Hdup dup copyable.
  revert l2 p; induction l1 as [|b1 l1 IH]; intros [|b2 l2] p H1 H2 C1 C2 E.
  - reflexivity.
  - exfalso. cbn [wfl] in H2. destruct H2 as (_ & Hb & _). apply (f_equal (@length _)) in E.
    rewrite flatl_cons, app_length, (flatb_length cat b2 Hb) in E. destruct Hb. simpl in E. lia.
  - exfalso. cbn [wfl] in H1. destruct H1 as (_ & Hb & _). apply (f_equal (@length _)) in E.
    rewrite flatl_cons, app_length, (flatb_length cat b1 Hb) in E. destruct Hb. simpl in E. lia.
  - pose proof H1 as H1'. pose proof H2 as H2'.
    cbn [wfl] in H1, H2. destruct H1 as (P1 & Hb1 & W1). destruct H2 as (P2 & Hb2 & W2).
    assert (forall (b : blk) l q k, wfl cat q (b :: l) -> k < bs b ->
              type_at cat (flatl (b :: l)) k = bcat b) as Htype.
    { intros b l q k W Hk. destruct W as (_ & [Z0 Hok] & _).
      unfold type_at. rewrite flatl_cons. unfold flatb, bcat, okd in *. destruct (bd b) as [e|].
      - destruct Hok as [Hl Ha]. rewrite nth_error_app1 by (rewrite map_length; lia).
        destruct (nth_error (ev e) k) as [v|] eqn:Ev.
        + erewrite map_nth_error by eauto. cbn [dcat option_map]. f_equal.
          apply nth_error_In in Ev. unfold all_cat in Ha. rewrite forallb_forall in Ha.
          apply Ha in Ev. now apply Nat.eqb_eq.
        + apply nth_error_None in Ev. lia.
      - rewrite nth_error_app1 by (rewrite repeat_length; lia).
        rewrite nth_error_repeat by lia. reflexivity. }
    assert (forall (b : blk) l q, wfl cat q (b :: l) -> forall b' l', l = b' :: l' ->
              type_at cat (flatl (b :: l)) (bs b) = bcat b') as Hnext.
    { intros b l q W b' l' ->. cbn [wfl] in W. destruct W as (_ & Hb & W).
      pose proof (flatb_length cat b Hb) as Hl.
      rewrite <- (Htype b' l' (q + bs b) 0 W ltac:(destruct W as (_ & [Z _] & _); lia)).
      unfold type_at. rewrite flatl_cons. rewrite nth_error_app2 by lia.
      now rewrite Hl, Nat.sub_diag. }
    assert (bcat b1 = bcat b2) as Ec.
    { rewrite <- (Htype b1 l1 p 0 H1' ltac:(destruct Hb1; lia)), E.
      apply (Htype b2 l2 p 0 H2'). destruct Hb2; lia. }
    assert (forall (a b : blk) l l', wfl cat p (a :: l) -> wfl cat p (b :: l') ->
       chain Rne (map bcat (a :: l)) -> flatl (a :: l) = flatl (b :: l') -> bcat a = bcat b ->
       ~ bs a < bs b) as Hlt.
    { intros a b l l' Wa Wb Ca Ef Ecc Hlt.
      destruct l as [|a' l].
      - apply (f_equal (@length _)) in Ef. rewrite !flatl_cons, !app_length in Ef.
        cbn [wfl] in Wa, Wb. destruct Wa as (_ & Ha & _). destruct Wb as (_ & Hb & _).
        rewrite (flatb_length cat a Ha), (flatb_length cat b Hb) in Ef. simpl in Ef. lia.
      - pose proof (Hnext a (a' :: l) p Wa a' l eq_refl) as N1.
        rewrite Ef in N1. rewrite (Htype b l' p (bs a) Wb Hlt) in N1.
        cbn [map chain] in Ca. destruct Ca as [Ca _]. unfold Rne in Ca. congruence. }
    assert (bs b1 = bs b2) as Es.
    { pose proof (Hlt b1 b2 l1 l2 H1' H2' C1 E Ec).
      pose proof (Hlt b2 b1 l2 l1 H2' H1' C2 (eq_sym E) (eq_sym Ec)). lia. }
    rewrite !flatl_cons in E.
    assert (flatb b1 = flatb b2 /\ flatl l1 = flatl l2) as [Ef Er].
    { assert (length (flatb b1) = length (flatb b2)) as Hl
        by (rewrite (flatb_length cat b1 Hb1), (flatb_length cat b2 Hb2); auto).
      revert E Hl. generalize (flatb b1) (flatb b2). induction l as [|x l IHl]; intros [|y l'] E Hl;
        try discriminate; cbn [app] in E; [auto|].
      injection E as -> E. destruct (IHl l' E ltac:(simpl in Hl; lia)) as [-> ->]. auto. }
    cbn [map]. f_equal.
    + unfold bsig. rewrite P1, P2, Es. f_equal.
      unfold bcat, flatb in *. destruct (bd b1) as [e1|], (bd b2) as [e2|]; cbn in Ec |- *; try discriminate; auto.
      injection Ec as ->. f_equal. f_equal.
      clear - Ef. revert Ef. generalize (ev e1) (ev e2).
      induction l as [|x l IHl]; intros [|y l'] Ef; try discriminate; auto.
      injection Ef as -> Ef. f_equal. now apply IHl.
    + apply (IH l2 (p + bs b1)); auto.
      * rewrite Es. exact W2.
      * eapply chain_tail; exact C1.
      * eapply chain_tail; exact C2.
Qed.

Lemma sig_flatl l1 l2 : map bsig l1 = map bsig l2 -> flatl l1 = flatl l2.
Proof.
  revert l2; induction l1 as [|b1 l1 IH]; intros [|b2 l2]; cbn [map]; try congruence.
  intros H. injection H as E1 E2 E3 E4. rewrite !flatl_cons, (IH _ E4). f_equal.
  unfold flatb. destruct (bd b1), (bd b2); cbn in E3; try discriminate; congruence.
Qed.

Lemma eq_mtv_spec (a b : st) :
  good cat a -> good cat b -> canon a -> canon b ->
  (eq_mtv veq a b = true <-> flat a = flat b).
Proof using Hveq.
  clear managed Hdup dup copyable.
  intros Ga Gb Ca Cb. rewrite eq_mtv_sig. split.
  - intros [_ H]. now apply sig_flatl.
  - intros H. split.
    + rewrite <- (len_flat cat a Ga), <- (len_flat cat b Gb). now rewrite H.
    + destruct Ga as (Wa & _), Gb as (Wb & _). apply (flatl_sig_inj _ _ 0); auto.
Qed.

Lemma eq_mtv_sound (a b : st) : eq_mtv veq a b = true -> flat a = flat b.
Proof using Hveq.
  clear managed Hdup dup copyable.
  intros H. apply eq_mtv_sig in H as [_ H]. now apply sig_flatl.
Qed.
End Eq.

(** ** Histories: ownership and events *)

Lemma cnt_count {A} (p : A -> bool) l : cnt p l = count p l.
Proof. unfold count. induction l as [|x l IH]; cbn; [reflexivity|]. destruct (p x); cbn; lia. Qed.

Lemma run_owner os s :
  good cat s -> legal_all cat managed os (flat s) -> none_bad (leaky cat managed) os (flat s) ->
  exists s', run cat managed os s = Ok s' /\ good cat s' /\ flat s' = run_spec os (flat s) /\
    forall p, cnt p (freed s') + cnt p (objects cat managed (flat s')) + cnt p (taken_all cat managed os (flat s))
            = cnt p (freed s) + cnt p (objects cat managed (flat s)) + cnt p (given_all cat managed os (flat s)).
Proof.
  revert s; induction os as [|o os IH]; intros s Hg; cbn [legal_all none_bad run run_spec taken_all given_all].
  - intros _ _. exists s. split; [reflexivity|]. split; [exact Hg|]. split; [reflexivity|]. reflexivity.
  - intros [H1 H2] [H3 H4]. pose proof (exec_spec cat managed o s Hg H1) as He.
    destruct (spec o (flat s)) as [l'|].
    + apply wp_ok in He as (s1 & E & G1 & F1 & _ & O1 & _). rewrite E. subst l'.
      destruct (IH s1 G1 H2 H4) as (s' & E' & G' & F' & O'). exists s'. do 3 (split; [assumption|]).
      intros p. specialize (O' p). specialize (O1 H3 p). rewrite !cnt_app. lia.
    + rewrite He. apply IH; auto.
Qed.

Lemma run_events os s :
  good cat s -> canon s -> legal_all cat managed os (flat s) ->
  none_bad (event_exempt cat) os (flat s) ->
  exists s', run cat managed os s = Ok s' /\ good cat s' /\ canon s' /\ events s s'.
Proof.
  revert s; induction os as [|o os IH]; intros s Hg Hc; cbn [legal_all none_bad run].
  - intros _ _. exists s. split; [reflexivity|]. split; [exact Hg|]. split; [exact Hc|]. intros p. lia.
  - intros [H1 H2] [H3 H4]. pose proof (exec_spec cat managed o s Hg H1) as He.
    destruct (spec o (flat s)) as [l'|].
    + apply wp_ok in He as (s1 & E & G1 & F1 & C1 & _ & O1). rewrite E. subst l'.
      assert (~ unmerged cat (flat s) o) as Hu.
      { intros Hu. apply H3. now apply exempt_unmerged. }
      destruct (IH s1 G1 (C1 Hc Hu) H2 H4) as (s' & E' & G' & C' & O'). exists s'. do 3 (split; [assumption|]).
      intros p. specialize (O' p). specialize (O1 Hc H3 p). lia.
    + rewrite He. apply IH; auto.
Qed.
End P.
