(** multi_type_vector: from the block-level lemmas to the specification. *)
From Coq Require Import List ZArith Lia Bool.
From Verif Require Import Base MtvModel MtvModel2 MtvSpec MtvProofs MtvWrap MtvAppend.
Import ListNotations.

Section P.
Set Default Proof Using "Type".
Context {V : Type}.
Variable cat : V -> nat.
Variable managed : nat -> bool.
Variable dup : V -> V.
Variable copyable : nat -> bool.
Notation eblk := (@eblk V).
Notation blk := (@blk V).
Notation st := (@st V).
Notation op := (@op V).

(** What get() reports on a sound container. *)
Lemma get_eq (s : st) i :
  good cat s ->
  get i s = match nth_error (flat s) i with Some x => Ok x | None => Throw E_out_of_range end.
Proof.
  intros Hg. destruct (Nat.lt_ge_cases i (cs s)) as [L|L].
  - destruct (get_spec cat s i Hg L) as (x & E1 & E2). now rewrite E1, E2.
  - rewrite <- (len_flat cat s Hg) in L. apply nth_error_None in L as E. rewrite E.
    unfold get. rewrite locate_none; [reflexivity|]. now rewrite <- (len_flat cat s Hg).
Qed.

Lemma shows_flat (s : st) : good cat s -> shows s (flat s).
Proof.
  intros Hg. split; [unfold size; symmetry; now apply (len_flat cat)|].
  intros i x E. now rewrite (get_eq s i Hg), E.
Qed.

Lemma nth_error_ext {A} (l1 l2 : list A) :
  (forall i, nth_error l1 i = nth_error l2 i) -> l1 = l2.
Proof.
  revert l2; induction l1 as [|x l1 IH]; intros [|y l2] H.
  - reflexivity.
  - specialize (H 0). discriminate.
  - specialize (H 0). discriminate.
  - pose proof (H 0) as H0. cbn in H0. injection H0 as ->. f_equal. apply IH.
    intros i. exact (H (S i)).
Qed.

Lemma shows_eq (s : st) l : good cat s -> shows s l -> l = flat s.
Proof.
  intros Hg [H1 H2]. apply nth_error_ext. intros i.
  pose proof (len_flat cat s Hg) as Hl. unfold size in H1.
  destruct (nth_error l i) as [x|] eqn:E.
  - apply H2 in E as E2. rewrite (get_eq s i Hg) in E2.
    destruct (nth_error (flat s) i); congruence.
  - apply nth_error_None in E. symmetry. apply nth_error_None. lia.
Qed.

Lemma one_type_all v0 vs : one_type cat (v0 :: vs) -> all_cat cat (cat v0) vs = true.
Proof.
  intros H. unfold all_cat. apply forallb_forall. intros x Hx. apply Nat.eqb_eq.
  apply H; simpl; auto.
Qed.

Lemma all_cat_one v0 vs : one_type cat (v0 :: vs) -> all_cat cat (cat v0) (v0 :: vs) = true.
Proof. intros H. rewrite all_cat_cons, Nat.eqb_refl. now apply one_type_all. Qed.

Lemma cut_resize n (s : st) : good cat s -> cut_ok cat managed n (flat s) -> resize_ok managed n s.
Proof.
  intros Hg Hc Hn Hlt q b t E Ht.
  pose proof Hg as (Hw & Hcs & _). rewrite E in Hw.
  apply wfl_app in Hw as [Hq Hw]. cbn [wfl] in Hw. destruct Hw as (_ & [_ Hok] & _).
  unfold shrink_ok, okd in *. destruct (bd b) as [e|] eqn:Eb; [|exact I].
  left. destruct Hok as [Hl Ha].
  destruct (nth_error (ev e) (n - 1 - tot q)) as [v|] eqn:Ev.
  - assert (cat v = ecat e) as <-.
    { apply nth_error_In in Ev. unfold all_cat in Ha. rewrite forallb_forall in Ha.
      apply Ha in Ev. now apply Nat.eqb_eq. }
    apply Hc; [rewrite (len_flat cat s Hg); lia|].
    unfold flat. rewrite E, flatl_app, flatl_cons.
    rewrite nth_error_app2 by (rewrite (flatl_length cat 0 q Hq); lia).
    rewrite (flatl_length cat 0 q Hq). unfold flatb. rewrite Eb.
    rewrite nth_error_app1 by (rewrite map_length; lia).
    now apply map_nth_error.
  - apply nth_error_None in Ev. lia.
Qed.

Lemma good_init g n : good cat (mk_size g n : st).
Proof.
  unfold mk_size. destruct (Nat.eqb_spec n 0) as [E|E]; unfold good; cbn [mk_empty bl cs wfl tot map bcat chain].
  - repeat split.
  - split; [|split; [cbn [bs]; lia|exact I]]. split; [reflexivity|]. split; [|exact I]. split; [cbn [bs]; lia|exact I].
Qed.

Lemma canon_init g n : canon (mk_size g n : st).
Proof. unfold mk_size. destruct (n =? 0); cbn; exact I. Qed.

Lemma all_cat_repeat v n : all_cat cat (cat v) (repeat v n) = true.
Proof. induction n; cbn; [reflexivity|]. now rewrite Nat.eqb_refl. Qed.

Lemma good_fill g n v : good cat (mk_fill cat g n v) /\ canon (mk_fill cat g n v).
Proof.
  unfold mk_fill. destruct (Nat.eqb_spec n 0) as [E|E].
  - split; cbn; repeat split.
  - split; [|cbn; exact I].
    split; [|split; [cbn [bl cs tot bs]; lia|exact I]].
    cbn [bl wfl bp bs]. split; [reflexivity|]. split; [|exact I].
    split; [cbn [bs]; lia|]. cbn [bd okd bs ev ecat]. split; [apply repeat_length|apply all_cat_repeat].
Qed.

Lemma good_range g n vs s :
  one_type cat vs -> mk_range cat g n vs = Ok s -> good cat s /\ canon s.
Proof.
  intros H1. unfold mk_range. destruct (Nat.eqb_spec n 0) as [E|E].
  - intros [= <-]. split; cbn; repeat split.
  - destruct (Nat.eqb_spec n (length vs)) as [E1|E1]; cbn [negb]; [|discriminate].
    destruct vs as [|v0 vs]; [discriminate|]. intros [= <-]. split; [|cbn; exact I].
    split; [|split; [cbn [bl cs tot bs]; lia|exact I]].
    cbn [bl wfl bp bs]. split; [reflexivity|]. split; [|exact I].
    split; [cbn [bs]; lia|]. cbn [bd okd bs ev ecat]. split; [auto|now apply all_cat_one].
Qed.

(** ** Copying *)

Definition odup (o : option V) : option V := option_map dup o.

Section Dup.
Hypothesis Hdup : forall v, cat (dup v) = cat v.

Lemma all_cat_dup c (l : list V) : all_cat cat c (map dup l) = all_cat cat c l.
Proof using Hdup. clear managed copyable. induction l as [|x l IH]; cbn; [reflexivity|]. rewrite Hdup. now f_equal. Qed.

Lemma copy_bl_spec g k l l' p :
  copy_bl dup copyable g k l = Ok l' -> wfl cat p l ->
  wfl cat p l' /\ map bcat l' = map bcat l /\ tot l' = tot l /\ flatl l' = map odup (flatl l)
  /\ map bp l' = map bp l /\ map bs l' = map bs l.
Proof using Hdup.
  clear managed.
  revert k l' p; induction l as [|b l IH]; intros k l' p; cbn [copy_bl].
  - intros [= <-] _. repeat split.
  - intros E (Hp & Hb & Hl).
    destruct b as [q z [e|]]; cbn [bd bp bs] in *.
    + unfold copy_data in E. destruct (copyable (ecat e)) eqn:Ec; cbn [bind] in E; [|discriminate].
      destruct (copy_bl dup copyable g (S k) l) as [t| |] eqn:Et; cbn [bind] in E; try discriminate.
      injection E as <-. destruct (IH _ _ _ Et Hl) as (H1 & H2 & H3 & H4 & H5 & H6).
      cbn [wfl map tot bp bs]. destruct Hb as [Hz [Hn Hc]]. cbn [bs bd okd] in *.
      split; [split; [auto|split; [|exact H1]]|].
      { split; [exact Hz|]. cbn [bs bd okd ev ecat]. rewrite map_length, all_cat_dup. auto. }
      repeat split; try congruence.
      * f_equal; exact H2.
      * rewrite !flatl_cons, map_app, H4. f_equal. unfold flatb. cbn [bd ev].
        rewrite !map_map. reflexivity.
    + cbn [bind] in E.
      destruct (copy_bl dup copyable g (S k) l) as [t| |] eqn:Et; cbn [bind] in E; try discriminate.
      injection E as <-. destruct (IH _ _ _ Et Hl) as (H1 & H2 & H3 & H4 & H5 & H6).
      cbn [wfl map tot bp bs].
      split; [split; [auto|split; [exact Hb|exact H1]]|].
      repeat split; try congruence.
      * rewrite !flatl_cons, map_app, H4. f_equal. unfold flatb. cbn [bd bs].
        clear. induction z; cbn; [reflexivity|]. now f_equal.
Qed.

Lemma copy_spec g s s' :
  good cat s -> copy_of dup copyable g s = Ok s' ->
  good cat s' /\ (canon s -> canon s') /\ flat s' = map odup (flat s).
Proof using Hdup.
  intros (Hw & Hc & He). unfold copy_of.
  destruct (copy_bl dup copyable g 0 (bl s)) as [l| |] eqn:E; cbn [bind]; try discriminate.
  intros [= <-]. destruct (copy_bl_spec _ _ _ _ _ E Hw) as (H1 & H2 & H3 & H4 & _).
  unfold good, canon, flat. cbn [bl cs]. rewrite H2, H3. repeat split; auto.
Qed.
End Dup.

(** ** One call *)

Lemma replace_splice a n (x l : list (option V)) : replace_range a n x l = splice a n x l.
Proof. reflexivity. Qed.

Lemma wp_drop_it {A B} (m : res (A * B)) Q : wp m (fun x => Q (fst x)) -> wp (drop_it m) Q.
Proof. unfold drop_it. destruct m; simpl; auto. Qed.

Lemma nil_cs (s : st) : good cat s -> flat s <> [] -> 0 < nblk s.
Proof.
  intros Hg H. apply (nblk_pos cat s Hg). rewrite <- (len_flat cat s Hg).
  destruct (flat s); [congruence|simpl; lia].
Qed.

Lemma hint_out (s : st) h pos :
  good cat s -> hint_ok h (flat s) -> cs s <= pos -> locate h pos s = Throw E_out_of_range.
Proof.
  intros Hg Hh H. apply (locate_out cat); auto. destruct Hh as [->|Hh]; [now left|right; now apply nil_cs].
Qed.

Lemma locate_in (s : st) h pos :
  good cat s -> pos < cs s ->
  exists q b t, bl s = q ++ b :: t /\ tot q <= pos < tot q + bs b /\ locate h pos s = Ok (length q).
Proof.
  intros Hg Hp. destruct s as [l c n g a r f]. pose proof Hg as (Hw & Hc & _). cbn [bl cs] in *.
  destruct (find_block cat 0 l pos Hw ltac:(lia)) as (q & b & t & E & H). subst l.
  exists q, b, t. split; [reflexivity|]. split; [exact H|]. apply (locate_spec cat); auto.
Qed.

Lemma set_empty_impl_out (s : st) h ow a b :
  good cat s -> hint_ok h (flat s) -> (b < a \/ cs s <= b) ->
  bind (locate h a s) (fun bi1 => set_empty_impl managed a b bi1 ow s) = Throw E_out_of_range.
Proof.
  intros Hg Hh H. destruct (Nat.lt_ge_cases a (cs s)) as [L|L].
  - destruct (locate_in s h a Hg L) as (q & b0 & t & E1 & E2 & E3). rewrite E3. cbn [bind].
    unfold set_empty_impl. destruct (Nat.ltb_spec b a) as [L1|L1]; [reflexivity|].
    rewrite block_pos_out by lia. cbn [bind]. now rewrite Nat.eqb_refl.
  - rewrite hint_out by auto. reflexivity.
Qed.

Lemma objects_flat (s : st) : good cat s -> objects cat managed (flat s) = mo managed (bl s).
Proof. intros (Hw & _). exact (oown_flatl cat managed 0 (bl s) Hw). Qed.

Definition effect (o : op) (s s' : st) (l' : list (option V)) : Prop :=
  good cat s' /\ flat s' = l' /\
  (canon s -> ~ unmerged cat (flat s) o -> canon s') /\
  (~ leaky cat managed (flat s) o ->
   forall p, cnt p (freed s') + cnt p (objects cat managed l') + cnt p (taken_back cat managed o (flat s))
           = cnt p (freed s) + cnt p (objects cat managed (flat s)) + cnt p (given cat managed o)) /\
  (canon s -> ~ event_exempt cat (flat s) o -> events s s').

Lemma step0_effect (o : op) (s s' : st) F i t :
  good cat s -> step0 cat managed s s' F i t ->
  i = given cat managed o -> t = taken_back cat managed o (flat s) ->
  (canon s -> ~ event_exempt cat (flat s) o -> events s s') -> effect o s s' F.
Proof.
  intros Hg (H1 & H2 & H3 & H4 & H5) -> -> H6.
  split; [exact H1|]. split; [exact H2|]. split; [intros; auto|]. split; [|exact H6].
  intros _ p. specialize (H5 p). rewrite <- H2, !objects_flat by auto. exact H5.
Qed.

Lemma step_effect (o : op) (s s' : st) F i t :
  good cat s -> step cat managed s s' F i t ->
  i = given cat managed o -> t = taken_back cat managed o (flat s) -> effect o s s' F.
Proof. intros Hg [H1 H2] H3 H4. eapply step0_effect; eauto. Qed.

Lemma wp_effect (o : op) (s : st) (m : res st) Q F F' i t :
  good cat s -> wp m Q -> (forall s', Q s' -> step cat managed s s' F i t) ->
  F = F' -> i = given cat managed o -> t = taken_back cat managed o (flat s) ->
  wp m (fun s' => effect o s s' F').
Proof.
  intros Hg H1 H2 <- H3 H4. eapply wp_mono; [exact H1|]. intros s' H. eapply step_effect; eauto.
Qed.

Lemma sub1 n m : n <= m -> S (m - n) = S m - n.
Proof. lia. Qed.

Lemma type_at_block (s : st) q b t k :
  good cat s -> bl s = q ++ b :: t -> tot q <= k < tot q + bs b -> type_at cat (flat s) k = bcat b.
Proof.
  clear managed dup copyable.
  intros (Hw & _) E Hk. rewrite E in Hw.
  apply wfl_app in Hw as [Hq Hw]. cbn [wfl] in Hw. destruct Hw as (_ & [_ Hok] & _).
  unfold type_at, flat. rewrite E, flatl_app, flatl_cons.
  rewrite nth_error_app2 by (rewrite (flatl_length cat 0 q Hq); lia).
  rewrite (flatl_length cat 0 q Hq). unfold flatb, bcat, okd in *. destruct (bd b) as [e|].
  - destruct Hok as [Hl Ha]. rewrite nth_error_app1 by (rewrite map_length; lia).
    destruct (nth_error (ev e) (k - tot q)) as [v|] eqn:Ev.
    + erewrite map_nth_error by eauto. cbn [dcat option_map]. f_equal.
      apply nth_error_In in Ev. unfold all_cat in Ha. rewrite forallb_forall in Ha.
      apply Ha in Ev. now apply Nat.eqb_eq.
    + apply nth_error_None in Ev. lia.
  - rewrite nth_error_app1 by (rewrite repeat_length; lia).
    rewrite nth_error_repeat by lia. reflexivity.
Qed.

Lemma type_at_some (l : list (option V)) k c :
  type_at cat l k = Some c -> exists v, nth_error l k = Some (Some v) /\ cat v = c.
Proof.
  unfold type_at. destruct (nth_error l k) as [[v|]|]; try discriminate. intros [= <-]. eauto.
Qed.

Lemma block_sizes (s : st) q b t : good cat s -> bl s = q ++ b :: t -> 0 < bs b.
Proof.
  intros (Hw & _) E. rewrite E in Hw. apply wfl_app in Hw as [_ Hw]. cbn [wfl] in Hw.
  destruct Hw as (_ & [H _] & _). exact H.
Qed.

Lemma unmerged_miss (s : st) h pos v0 vs :
  good cat s -> canon s -> ~ unmerged cat (flat s) (OSetRange h pos (v0 :: vs)) ->
  ~ range_merge_miss s pos (S (length vs)) (cat v0).
Proof.
  intros Hg Hc Hu (q & b1 & m & b2 & t & E & H1 & H2 & H3 & H4). apply Hu. clear Hu.
  destruct t as [|x t]; [contradiction|].
  assert (bl s = (q ++ b1 :: m) ++ b2 :: x :: t) as E2 by (rewrite E, <- app_assoc; reflexivity).
  assert (bl s = (q ++ b1 :: m ++ [b2]) ++ x :: t) as E3
    by (rewrite E, <- !app_assoc; cbn [app]; rewrite <- !app_assoc; reflexivity).
  pose proof (block_sizes s _ _ _ Hg E2) as Z2. pose proof (block_sizes s _ _ _ Hg E3) as Z3.
  cbn [unmerged]. split; [|split].
  - rewrite (type_at_block s q b1 (m ++ b2 :: x :: t)); auto.
  - rewrite (type_at_block s (q ++ b1 :: m) b2 (x :: t)); auto;
      [|rewrite tot_app; cbn [tot]; lia].
    unfold canon in Hc. rewrite E2, map_app in Hc. apply chain_post in Hc. cbn [map chain] in Hc.
    destruct Hc as [Hc _]. rewrite H4 in Hc. exact Hc.
  - rewrite (type_at_block s (q ++ b1 :: m ++ [b2]) x t); auto.
    rewrite tot_app. cbn [tot]. rewrite tot_app. cbn [tot]. lia.
Qed.

Lemma leaky_leak (s : st) h pos v0 vs :
  good cat s -> ~ leaky cat managed (flat s) (OSetRange h pos (v0 :: vs)) ->
  ~ range_leak managed s pos (S (length vs)) (cat v0).
Proof.
  intros Hg Hu (q & b1 & m & b2 & t & e & E & H1 & H2 & H3 & H4 & H5 & H6 & H7). apply Hu. clear Hu.
  cbn [leaky]. split.
  - rewrite (type_at_block s q b1 (m ++ b2 :: t)); auto.
  - assert (bl s = (q ++ b1 :: m) ++ b2 :: t) as E2 by (rewrite E, <- app_assoc; reflexivity).
    assert (type_at cat (flat s) (pos + length vs) = Some (ecat e)) as Et.
    { rewrite (type_at_block s (q ++ b1 :: m) b2 t); auto.
      - unfold bcat. now rewrite H5.
      - rewrite tot_app. cbn [tot]. lia. }
    apply type_at_some in Et as (v & Ev & Ec). exists v. rewrite Ec. auto.
Qed.

Lemma exempt_events (s : st) h pos v0 vs :
  good cat s -> canon s -> ~ event_exempt cat (flat s) (OInsert h pos (v0 :: vs)) ->
  insert_events_ok s pos (cat v0).
Proof.
  intros Hg Hc Hu q b t e E E1 E2 E3. subst pos.
  pose proof (block_sizes s _ _ _ Hg E) as Zb.
  assert (type_at cat (flat s) (tot q) = Some (ecat e)) as Et.
  { rewrite (type_at_block s q b t); auto; [|lia]. unfold bcat. now rewrite E2. }
  apply type_at_some in Et as (v & Ev & Ec).
  destruct q as [|b' q _] using rev_ind.
  - exfalso. apply Hu. cbn [event_exempt]. exists v. rewrite Ec. repeat split; auto.
  - exists q, b'. split; [reflexivity|].
    rewrite <- app_assoc in E. cbn [app] in E.
    pose proof (block_sizes s _ _ _ Hg E) as Zb'.
    assert (type_at cat (flat s) (tot (q ++ [b']) - 1) = bcat b') as Et.
    { rewrite tot_app. cbn [tot]. apply (type_at_block s q b' (b :: t)); auto. lia. }
    destruct (bcat b') as [c|] eqn:Ebc.
    + destruct (Nat.eq_dec c (cat v0)) as [->|Hn]; [reflexivity|]. exfalso. apply Hu.
      cbn [event_exempt]. exists v. rewrite Ec. split; [exact Ev|]. split; [exact E3|]. right.
      rewrite Et. split; [congruence|].
      unfold canon in Hc. rewrite E, map_app in Hc. apply chain_post in Hc. cbn [map chain] in Hc.
      destruct Hc as [Hc _]. rewrite Ebc in Hc. unfold bcat in Hc. rewrite E2 in Hc. exact Hc.
    + exfalso. apply Hu.
      cbn [event_exempt]. exists v. rewrite Ec. split; [exact Ev|]. split; [exact E3|]. right.
      rewrite Et. split; discriminate.
Qed.

Lemma exempt_unmerged (l : list (option V)) (o : op) : unmerged cat l o -> event_exempt cat l o.
Proof. destruct o; cbn [unmerged event_exempt]; auto; contradiction. Qed.

Lemma silent_range (s : st) h pos v0 vs :
  good cat s -> canon s -> ~ silent cat (flat s) (OSetRange h pos (v0 :: vs)) ->
  ~ range_silent s pos (S (length vs)) (cat v0).
Proof.
  intros Hg Hc Hu (q & b & t & e & E & H1 & H2 & H3 & H4). apply Hu. clear Hu.
  assert (bcat b = Some (ecat e)) as Eb by (unfold bcat; now rewrite H3).
  cbn [silent]. exists (ecat e). split; [exact H4|]. split.
  - destruct q as [|b' q _] using rev_ind; [left; exact H1|right].
    rewrite <- app_assoc in E. cbn [app] in E.
    pose proof (block_sizes s _ _ _ Hg E) as Zb'. rewrite tot_app in H1. cbn [tot] in H1.
    rewrite (type_at_block s q b' (b :: t)) by (auto; lia).
    unfold canon in Hc. rewrite E, map_app in Hc. apply chain_post in Hc. cbn [map chain] in Hc.
    destruct Hc as [Hc _]. rewrite Eb in Hc. exact Hc.
  - intros k Hk. rewrite (type_at_block s q b t) by (auto; lia). exact Eb.
Qed.

Lemma objects_map v0 vs :
  one_type cat (v0 :: vs) -> own managed (cat v0) (v0 :: vs) = objects cat managed (map Some (v0 :: vs)).
Proof. intros H. symmetry. apply (oown_map cat managed). now apply all_cat_one. Qed.

(** The effect of one call, in terms of the logical content. *)
Lemma exec_spec (o : op) (s : st) :
  good cat s -> legal cat managed o (flat s) ->
  match spec o (flat s) with
  | Some l' => wp (exec cat managed o s) (fun s' => effect o s s' l')
  | None => exec cat managed o s = Throw E_out_of_range
  end.
Proof.
  intros Hg Hl. pose proof (len_flat cat s Hg) as Hn.
  destruct o as [h pos v|h pos vs|h a b|h pos|h a b| |a b|h pos vs|h pos n|v| |n| ]; cbn [legal spec exec] in *;
    rewrite ?replace_splice.
  - destruct (Nat.ltb_spec pos (length (flat s))) as [L|L].
    + apply wp_drop_it. eapply wp_mono; [apply (set_spec cat managed s h pos v); auto; lia|].
      intros x [H _]. eapply step_effect; eauto.
    + unfold drop_it, set. rewrite hint_out by (auto; lia). reflexivity.
  - destruct vs as [|v0 vs].
    + cbn. eapply step_effect; [auto|apply step_refl; auto|reflexivity|reflexivity].
    + cbn [length]. destruct (Nat.leb_spec (pos + S (length vs)) (length (flat s))) as [L|L].
      * apply wp_drop_it.
        eapply wp_mono; [apply (set_range_spec cat managed s h pos v0 vs); auto; try lia; now apply one_type_all|].
        intros x [(R1 & R2 & R3 & R4 & R5 & R6) _]. split; [exact R1|]. split; [exact R2|].
        split; [intros Hc Hu; apply R3; [exact Hc|]; now apply (unmerged_miss s h)|].
        split; [|intros Hc Hx; apply R6, (silent_range s h pos v0 vs Hg Hc); intros Hs; apply Hx; now left].
        intros Hlk p. specialize (R5 (leaky_leak s h pos v0 vs Hg Hlk) p).
        rewrite <- R2, !objects_flat by auto. cbn [taken_back given cnt]. rewrite <- objects_map by auto.
        rewrite Nat.add_0_r. exact R5.
      * unfold drop_it, set_range. cbn [length].
        destruct (Nat.leb_spec (cs s) (pos + S (length vs) - 1)) as [L1|L1]; [reflexivity|lia].
  - destruct (Nat.leb_spec a b) as [L|L]; cbn [andb].
    + destruct (Nat.ltb_spec b (length (flat s))) as [L1|L1].
      * apply wp_drop_it. eapply wp_mono; [apply (set_empty_spec cat managed s h a b); auto; lia|].
        intros x [H _]. rewrite sub1 in H by auto. eapply step_effect; eauto.
      * unfold drop_it, set_empty. rewrite set_empty_impl_out by (auto; lia). reflexivity.
    + unfold drop_it, set_empty. rewrite set_empty_impl_out by (auto; lia). reflexivity.
  - destruct (Nat.ltb_spec pos (length (flat s))) as [L|L].
    + apply wp_drop_it, wp_drop_it. eapply wp_mono; [apply (release_spec cat managed s h pos); auto; lia|].
      cbn beta. intros x (H1 & H & _). eapply step_effect; eauto.
      cbn [taken_back]. apply nth_error_split in H1 as (u & w & Eu & Hu). rewrite Eu, <- Hu, skipn_app_exact.
      cbn [firstn objects flat_map]. now rewrite app_nil_r.
    + unfold drop_it, release. rewrite hint_out by (auto; lia). reflexivity.
  - destruct (Nat.leb_spec a b) as [L|L]; cbn [andb].
    + destruct (Nat.ltb_spec b (length (flat s))) as [L1|L1].
      * apply wp_drop_it. eapply wp_mono; [apply (release_range_spec cat managed s h a b); auto; lia|].
        intros x [H _]. rewrite sub1 in H by auto. eapply step_effect; eauto.
      * unfold drop_it, release_range. rewrite set_empty_impl_out by (auto; lia). reflexivity.
    + unfold drop_it, release_range. rewrite set_empty_impl_out by (auto; lia). reflexivity.
  - cbn [wp]. eapply step_effect; [auto|apply (release_all_spec cat managed); auto|reflexivity|reflexivity].
  - destruct (Nat.leb_spec a b) as [L|L]; cbn [andb].
    + destruct (Nat.ltb_spec b (length (flat s))) as [L1|L1].
      * eapply wp_mono; [apply (erase_spec cat managed s a b); auto; lia|].
        intros x H. rewrite sub1 in H by auto. eapply step_effect; eauto.
      * unfold erase, erase_impl. destruct (Nat.ltb_spec b a) as [L2|L2]; [reflexivity|].
        destruct (Nat.lt_ge_cases a (cs s)) as [L3|L3].
        -- destruct (locate_in s None a Hg L3) as (q & b0 & t & E1 & E2 & E3).
           unfold locate in E3. destruct (block_pos a 0 s) as [bi| |]; cbn [bind] in *; try discriminate.
           destruct (bi =? nblk s); [discriminate|].
           rewrite block_pos_out by lia. cbn [bind]. now rewrite Nat.eqb_refl.
        -- rewrite block_pos_out by lia. cbn [bind]. now rewrite Nat.eqb_refl.
    + unfold erase. destruct (Nat.ltb_spec b a) as [L2|L2]; [reflexivity|lia].
  - destruct Hl as [Hh Ho]. destruct (Nat.ltb_spec pos (length (flat s))) as [L|L].
    + apply wp_drop_it. destruct vs as [|v0 vs].
      * destruct (locate_in s h pos Hg ltac:(lia)) as (q & b0 & t & E1 & E2 & E3).
        unfold insert. rewrite E3. cbn [bind]. unfold insert_cells_impl, pos_at, bat.
        rewrite E1, nth_error_app_mid. cbn [deref bind wp fst map].
        eapply step_effect; [auto| |reflexivity|reflexivity].
        eapply step_eq; [apply step_refl; auto|]. unfold splice. cbn [app].
        rewrite Nat.add_0_r. symmetry. apply firstn_skipn.
      * eapply wp_mono; [apply (insert_spec cat managed s h pos v0 vs); auto; try lia; now apply one_type_all|].
        cbn beta. intros x (H1 & _ & H2). eapply step0_effect; eauto.
        -- cbn [given]. now apply objects_map.
        -- intros Hc Hx. apply H2. now apply (exempt_events s h pos v0 vs).
    + unfold drop_it, insert. rewrite hint_out by (auto; lia). reflexivity.
  - destruct (Nat.eqb_spec n 0) as [E|E].
    + subst n. cbn. eapply step_effect; [auto|apply step_refl; auto|reflexivity|reflexivity].
    + destruct (Nat.ltb_spec pos (length (flat s))) as [L|L].
      * apply wp_drop_it. eapply wp_mono; [apply (insert_empty_spec cat managed s h pos n); auto; lia|].
        intros x [H _]. eapply step_effect; eauto.
      * unfold drop_it, insert_empty. destruct (Nat.eqb_spec n 0); [lia|].
        rewrite hint_out by (auto; lia). reflexivity.
  - apply wp_drop_it. eapply wp_mono; [apply (push_back_spec cat managed s v); auto|].
    intros x [H _]. eapply step_effect; eauto.
  - apply wp_drop_it. eapply wp_mono; [apply (push_back_empty_spec cat managed s); auto|].
    intros x [H _]. eapply step_effect; eauto.
  - eapply wp_mono; [apply (resize_spec cat managed s n); auto; now apply cut_resize|].
    cbn beta. intros x H. rewrite Hn. eapply step_effect; eauto.
  - eapply wp_mono; [apply (clear_spec cat managed s); auto|].
    cbn beta. intros x H. eapply step_effect; eauto.
Qed.

End P.
