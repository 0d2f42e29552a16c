(** Properties of the array-of-structures container (C73) and of clone() (C74).
    The specification is in MtvSpec.v and MtvAosSpec.v. *)
From Coq Require Import List ZArith Lia Bool Permutation.
From Verif Require Import Base MtvModel MtvModel2 MtvXfer MtvSpec MtvProofs MtvWrap MtvBridge MtvBridge2
  MtvXferHole MtvXferProofs MtvSwapExch MtvSwapMain MtvProps MtvXferProps MtvAos MtvAosSpec MtvAosProofs.
Import ListNotations.

Section T.
Set Default Proof Using "Type".
Context {V : Type}.
Variable cat : V -> nat.
Variable managed : nat -> bool.
Variable dup : V -> V.
Variable copyable : nat -> bool.
(** Copying a value keeps its type. *)
Hypothesis Hdup : forall v, cat (dup v) = cat v.
Notation st := (@st V).
Notation op := (@op V).
Notation reach := (@reach V cat managed dup copyable).
Notation reach_aos := (@reach_aos V cat managed dup copyable).

Ltac good_of H := pose proof (reach_aos_good cat managed dup copyable Hdup _ _ H).

Lemma size_flat g n : flat (mk_size g n : st) = repeat None n.
Proof.
  unfold mk_size, flat. destruct (Nat.eqb_spec n 0) as [->|]; [reflexivity|].
  cbn [bl]. rewrite flatl_cons. cbn. now rewrite app_nil_r.
Qed.

(** ** C73: histories *)

(** Every sequence of calls has the effect of the specification, from every container
    that a program can build. *)
Theorem C73_histories : forall os s l,
  reach_aos anyop s -> shows s l -> legal_all cat managed os l ->
  exists s', run_aos cat managed os s = Ok s' /\ reach_aos anyop s' /\ shows s' (run_spec os l).
Proof using Hdup. intros os s l. apply (run_aos_refines cat managed dup copyable Hdup). intros. exact I. Qed.

(** Both layouts show the same entries after the same calls. *)
Theorem C73_layouts_agree : forall g g' n os,
  legal_all cat managed os (repeat None n) ->
  exists a b l, run cat managed os (mk_size g n) = Ok a /\ run_aos cat managed os (mk_size g' n) = Ok b /\
    shows a l /\ shows b l /\ l = run_spec os (repeat None n).
Proof.
  intros g g' n os Hl.
  assert (forall g, shows (mk_size g n : st) (repeat None n)) as Hs.
  { intros g0. rewrite <- (size_flat g0 n). apply (shows_flat cat), good_init. }
  destruct (run_refines cat managed (fun v => v) (fun _ => true) (fun _ => eq_refl) os (mk_size g n) _
              (r_size _ _ _ _ _ g n) (Hs g) Hl) as (a & Ea & _ & Sa).
  destruct (run_aos_refines cat managed (fun v => v) (fun _ => true) (fun _ => eq_refl) anyop os (mk_size g' n) _
              (fun _ _ _ => I) (ra_size _ _ _ _ _ g' n) (Hs g') Hl) as (b & Eb & _ & Sb).
  exists a, b, (run_spec os (repeat None n)). auto.
Qed.

(** They also have the same blocks.  Missing for the full statement: histories with a
    range set as in finding M4. *)
Theorem C73_blocks_agree_partial : forall g g' n os,
  legal_all cat managed os (repeat None n) -> none_bad (unmerged cat) os (repeat None n) ->
  exists a b, run cat managed os (mk_size g n) = Ok a /\ run_aos cat managed os (mk_size g' n) = Ok b /\
    forall i, block a i = block b i.
Proof.
  intros g g' n os Hl Hu.
  pose proof (run_canon cat managed os (mk_size g n : st)) as Ha.
  pose proof (run_aos_canon cat managed os (mk_size g' n : st)) as Hb.
  rewrite size_flat in Ha, Hb.
  destruct Ha as (a & Ea & Ga & Ca & Fa); [apply good_init|apply canon_init|exact Hl|exact Hu|].
  destruct Hb as (b & Eb & Gb & Cb & Fb); [apply good_init|apply canon_init|exact Hl|exact Hu|].
  exists a, b. split; [exact Ea|]. split; [exact Eb|]. intros i.
  assert (map bsig (bl a) = map bsig (bl b)) as E.
  { destruct Ga as (Wa & _), Gb as (Wb & _). apply (flatl_sig_inj cat _ _ 0); auto.
    unfold flat in *. congruence. }
  unfold block.
  assert (nth_error (map bsig (bl a)) i = nth_error (map bsig (bl b)) i) as En by now rewrite E.
  rewrite !nth_error_map in En.
  destruct (nth_error (bl a) i) as [x|], (nth_error (bl b) i) as [y|]; cbn in En; try discriminate; auto.
  injection En as E1 E2 E3. rewrite E1, E2. unfold dcat.
  destruct (bd x), (bd y); cbn in E3; try discriminate; auto.
  injection E3 as E4 _. cbn. now rewrite E4.
Qed.

(** ** C73: insert, the call that differs *)
Theorem C73_insert : forall s l h pos vs,
  reach_aos anyop s -> shows s l -> hint_ok h l -> one_type cat vs -> vs <> [] -> pos < size s ->
  exists s' i,
    insert_aos cat h pos vs s = Ok (s', i) /\ reach_aos anyop s' /\
    size s' = size s + length vs /\
    (forall j, j < pos -> get j s' = get j s) /\
    (forall j v, nth_error vs j = Some v -> get (pos + j) s' = Ok (Some v)) /\
    (forall j, get (pos + length vs + j) s' = get (pos + j) s) /\
    in_block s' i pos /\
    forall p, count p (acq s') + count p (rel s) + count p (blocks_held s) =
              count p (acq s) + count p (rel s') + count p (blocks_held s').
Proof using Hdup.
  intros s l h pos vs Hr Hs Hh Ho Hne Hp. good_of Hr. destruct vs as [|v0 vs]; [congruence|].
  unfold size in Hp.
  destruct (wp_ok _ _ (insert_aos_spec cat managed s h pos v0 vs H Hp (one_type_all cat v0 vs Ho)))
    as ([s' i] & E & [St Ev] & At).
  cbn [fst snd] in *. exists s', i. split; [exact E|].
  assert (reach_aos anyop s') as Hr'.
  { eapply ra_step with (o := OInsert h pos (v0 :: vs)); eauto; [split; auto|exact I|].
    cbn [exec_aos]. now rewrite E. }
  split; [exact Hr'|]. destruct St as (G' & F' & _).
  pose proof (get_splice cat s s' pos 0 _ H G' F' ltac:(lia)) as Hget.
  pose proof (size_splice cat s s' pos 0 _ H G' F' ltac:(lia)) as Hsize.
  rewrite map_length in *. split; [lia|]. split; [|split; [|split; [|split]]].
  - intros j Hj. rewrite Hget. destruct (Nat.ltb_spec j pos); [reflexivity|lia].
  - intros j v Hj. assert (j < length (v0 :: vs)) by (apply nth_error_Some; congruence).
    rewrite Hget. destruct (Nat.ltb_spec (pos + j) pos); [lia|].
    destruct (Nat.ltb_spec (pos + j) (pos + length (v0 :: vs))); [|lia].
    replace (pos + j - pos) with j by lia. now rewrite nth_error_map, Hj.
  - intros j. rewrite Hget. destruct (Nat.ltb_spec (pos + length (v0 :: vs) + j) pos); [cbn [length] in *; lia|].
    destruct (Nat.ltb_spec (pos + length (v0 :: vs) + j) (pos + length (v0 :: vs))); [lia|]. f_equal. lia.
  - now apply in_at.
  - intros p. specialize (Ev p). rewrite <- !cnt_count. exact Ev.
Qed.

Theorem C73_insert_out_of_range : forall s l h pos vs,
  reach_aos anyop s -> shows s l -> hint_ok h l -> size s <= pos ->
  insert_aos cat h pos vs s = Throw E_out_of_range.
Proof using Hdup.
  intros s l h pos vs Hr Hs Hh Hp. good_of Hr. pose proof (shows_eq cat s l H Hs) as ->.
  unfold insert_aos. rewrite (hint_out cat s h pos H Hh); [reflexivity|exact Hp].
Qed.

(** ** C73: two containers *)
Theorem C73_transfer : forall s d h a b dp,
  reach_aos anyop s -> reach_aos anyop d -> a <= b -> b < size s -> dp + (b - a) < size d ->
  exists s' d' i,
    transfer managed h a b dp s d = Ok (s', d', i) /\ reach_aos anyop s' /\ reach_aos anyop d' /\
    size s' = size s /\ size d' = size d /\
    (forall j, a + j <= b -> get (dp + j) d' = get (a + j) s /\ get (a + j) s' = Ok None) /\
    (forall j, j < a \/ b < j -> get j s' = get j s) /\
    (forall j, j < dp \/ dp + (b - a) < j -> get j d' = get j d) /\
    in_block s' i a.
Proof using Hdup.
  intros s d h a b dp Hr Hr' Hab Hb Hd. good_of Hr. good_of Hr'. unfold size in Hb, Hd.
  assert (dp + (b - a + 1) <= cs d) as Hd' by lia.
  destruct (wp_ok _ _ (transfer_spec cat managed s d h a b dp H H0 Hab Hb Hd')) as ([[s' d'] i] & E & X & At & Y).
  cbn [fst snd] in *. exists s', d', i. split; [exact E|].
  split; [eapply ra_xfer_src; [exact Hr|exact Hr'|exact E]|]. split; [eapply ra_xfer_dst; [exact Hr|exact Hr'|exact E]|].
  destruct X as (G1 & F1 & _). destruct Y as (G2 & F2 & _).
  destruct (rows_calls cat s s' a _ _ H G1 F1) as (A1 & A2 & A3); [apply repeat_length|lia|].
  destruct (rows_calls cat d d' dp _ _ H0 G2 F2) as (B1 & B2 & B3); [apply (len_rows cat); auto; lia|lia|].
  split; [exact A1|]. split; [exact B1|]. split; [|split; [|split; [|now apply in_at]]].
  - intros j Hj. destruct (get_rows cat s a (b - a + 1) j H) as (y & Ey & Ny); [lia|lia|].
    split; [rewrite Ey; now apply B2|]. apply A2, nth_error_repeat; lia.
  - intros j Hj. apply A3; lia.
  - intros j Hj. apply B3; lia.
Qed.

Theorem C73_swap : forall s o a b p,
  reach_aos anyop s -> reach_aos anyop o -> a <= b -> b < size s -> p + (b - a) < size o ->
  exists s' o',
    swap_range cat managed a b p s o = Ok (s', o') /\ reach_aos anyop s' /\ reach_aos anyop o' /\
    size s' = size s /\ size o' = size o /\
    (forall j, a + j <= b -> get (a + j) s' = get (p + j) o /\ get (p + j) o' = get (a + j) s) /\
    (forall j, j < a \/ b < j -> get j s' = get j s) /\
    (forall j, j < p \/ p + (b - a) < j -> get j o' = get j o).
Proof using Hdup.
  intros s o a b p Hr Hr' Hab Hb Hd. good_of Hr. good_of Hr'. unfold size in Hb, Hd.
  assert (p + (b - a + 1) <= cs o) as Hd' by lia.
  destruct (wp_ok _ _ (swap_range_spec cat managed s o a b p H H0 Hab Hb Hd')) as ([s' o'] & E & X & Y).
  cbn [fst snd] in *. exists s', o'. split; [exact E|].
  split; [eapply ra_swap_left; [exact Hr|exact Hr'|exact E]|]. split; [eapply ra_swap_right; [exact Hr|exact Hr'|exact E]|].
  destruct X as (G1 & F1 & _). destruct Y as (G2 & F2 & _).
  destruct (rows_calls cat s s' a _ _ H G1 F1) as (A1 & A2 & A3); [apply (len_rows cat); auto; lia|lia|].
  destruct (rows_calls cat o o' p _ _ H0 G2 F2) as (B1 & B2 & B3); [apply (len_rows cat); auto; lia|lia|].
  split; [exact A1|]. split; [exact B1|]. split; [|split].
  - intros j Hj. destruct (get_rows cat s a (b - a + 1) j H) as (y & Ey & Ny); [lia|lia|].
    destruct (get_rows cat o p (b - a + 1) j H0) as (z & Ez & Nz); [lia|lia|].
    split; [rewrite Ez; now apply A2|rewrite Ey; now apply B2].
  - intros j Hj. apply A3; lia.
  - intros j Hj. apply B3; lia.
Qed.

(** ** C73: ownership and events *)

(** Missing for the full statement: resize as in finding M2 ([legal_all] contains
    [cut_ok]) and range set as in finding M3. *)
Theorem C73_owned_once_partial : forall (eq_dec : forall x y : V, {x = y} + {x <> y}) g n os,
  legal_all cat managed os (repeat None n) -> none_bad (leaky cat managed) os (repeat None n) ->
  exists s l, run_aos cat managed os (mk_size g n) = Ok s /\ shows s l /\
    Permutation (given_all cat managed os (repeat None n))
                (freed s ++ objects cat managed l ++ taken_all cat managed os (repeat None n)).
Proof.
  intros eq_dec g n os H1 H2.
  assert (good cat (mk_size g n : st)) as Hg by apply good_init.
  rewrite <- (size_flat g n) in H1, H2.
  destruct (run_aos_owner cat managed os _ Hg H1 H2) as (s & E & G & F & O).
  exists s, (flat s). split; [exact E|]. split; [now apply (shows_flat cat)|].
  rewrite size_flat in O.
  apply (Permutation_count_occ eq_dec). intros v.
  assert (forall l : list V, count_occ eq_dec l v = cnt (fun x => if eq_dec x v then true else false) l) as Hc.
  { induction l as [|x l IH]; cbn; [reflexivity|]. destruct (eq_dec x v); cbn; lia. }
  rewrite Hc, Hc, !cnt_app.
  specialize (O (fun x => if eq_dec x v then true else false)).
  assert (objects cat managed (repeat None n) = []) as E0 by (clear; induction n; auto).
  assert (freed (mk_size g n : st) = []) as E1 by (unfold mk_size; now destruct (n =? 0)).
  rewrite E0, E1 in O. cbn [cnt] in O. lia.
Qed.

(** Every block is reported when it comes and when it goes; insert is included.
    Missing for the full statement: range sets as in findings M4 and M8. *)
Theorem C73_events_partial : forall g n os,
  legal_all cat managed os (repeat None n) -> none_bad (exempt_aos cat) os (repeat None n) ->
  exists s, run_aos cat managed os (mk_size g n) = Ok s /\
    forall p, count p (acq s) = count p (rel s) + count p (blocks_held s).
Proof.
  intros g n os H1 H2.
  assert (good cat (mk_size g n : st)) as Hg by apply good_init.
  rewrite <- (size_flat g n) in H1, H2.
  destruct (run_aos_events cat managed os _ Hg (canon_init g n) H1 H2) as (s & E & _ & _ & O).
  exists s. split; [exact E|]. intros p. specialize (O p). rewrite <- !cnt_count.
  assert (acq (mk_size g n : st) = [] /\ rel (mk_size g n : st) = [] /\ refs (bl (mk_size g n : st)) = []) as (E1 & E2 & E3).
  { unfold mk_size. destruct (n =? 0); auto. }
  rewrite E1, E2, E3 in O. cbn [cnt] in O. unfold blocks_held, held.
  change (flat_map _ (bl s)) with (refs (bl s)). lia.
Qed.

(** ** C73: comparison *)

(** operator== decides equality of the entries although it does not look at the
    positions.  Missing for the full statement: containers built with a range set as
    in finding M4. *)
Theorem C73_equal_partial : forall (veq : V -> V -> bool),
  (forall x y, veq x y = true <-> x = y) ->
  forall a b la lb,
  reach_aos (fun l o => ~ unmerged cat l o) a -> reach_aos (fun l o => ~ unmerged cat l o) b ->
  shows a la -> shows b lb ->
  (eq_aos veq a b = true <-> la = lb).
Proof using Hdup.
  intros veq Hveq a b la lb Ha Hb Sa Sb. good_of Ha. good_of Hb.
  rewrite (eq_aos_same cat veq a b H H0), (shows_eq cat a la H Sa), (shows_eq cat b lb H0 Sb).
  apply (eq_mtv_spec cat veq Hveq); auto; eapply (reach_aos_canon cat managed dup copyable Hdup); eauto; auto.
Qed.

(** ** C73: copy *)

(** A copy shows the copied entries; nothing is lost when it succeeds; it fails
    exactly when some entry has a type that cannot be copied, and then the copies of
    the entries in front of the first such entry are lost. *)
Theorem C73_copy_partial : forall A g s l,
  reach_aos A s -> shows s l ->
  ((forall v, In (Some v) l -> copyable (cat v) = true) ->
   exists s', copy_of_aos dup copyable g s = (Ok s', []) /\ reach_aos A s' /\
     shows s' (map (option_map dup) l)) /\
  (forall v, In (Some v) l -> copyable (cat v) = false ->
   exists w, copy_of_aos dup copyable g s = (Throw E_element_block, w) /\
     flat_map ev w = map dup (flat_map some_of (before_uncopyable cat copyable l))).
Proof using Hdup.
  intros A g s l Hr Hs. good_of Hr. pose proof (shows_eq cat s l H Hs) as ->.
  pose proof H as (Hw & _).
  assert (forall l k p, wfl cat p l ->
    (forall v, In (Some v) (flatl l) -> copyable (cat v) = true) ->
    exists l', copy_bl dup copyable g k l = Ok l') as Hok.
  { clear. intros l. induction l as [|b t IH]; intros k p Hw Hc; [eexists; reflexivity|].
    cbn [wfl] in Hw. destruct Hw as (_ & [Hz Hok] & Hw).
    destruct (IH (S k) _ Hw) as (t' & Et).
    { intros v Hv. apply Hc. rewrite flatl_cons. apply in_or_app. auto. }
    cbn [copy_bl]. unfold okd in Hok. destruct (bd b) as [e|] eqn:Eb.
    - destruct Hok as [Hl Ha]. unfold copy_data.
      destruct (ev e) as [|v0 vs] eqn:Ev; [simpl in Hl; lia|].
      cbn in Ha. apply andb_prop in Ha as [Ha _]. apply Nat.eqb_eq in Ha. rewrite <- Ha.
      rewrite (Hc v0).
      + cbn [bind]. rewrite Et. eexists. reflexivity.
      + rewrite flatl_cons. apply in_or_app. left. unfold flatb. rewrite Eb, Ev. now left.
    - cbn [bind]. rewrite Et. eexists. reflexivity. }
  assert (forall l k p v, wfl cat p l -> In (Some v) (flatl l) -> copyable (cat v) = false ->
    copy_bl dup copyable g k l = Throw E_element_block) as Hbad.
  { clear. intros l. induction l as [|b t IH]; intros k p v Hw Hv Hc; [destruct Hv|].
    cbn [wfl] in Hw. destruct Hw as (_ & [Hz Hok] & Hw). rewrite flatl_cons in Hv.
    cbn [copy_bl]. unfold okd, flatb in *. destruct (bd b) as [e|] eqn:Eb.
    - unfold copy_data. destruct (copyable (ecat e)) eqn:Ee; [|reflexivity]. cbn [bind].
      apply in_app_or in Hv as [Hv|Hv]; [|now rewrite (IH (S k) _ v Hw Hv Hc)].
      apply in_map_iff in Hv as (v' & [= ->] & Hv). destruct Hok as [_ Ha].
      unfold all_cat in Ha. rewrite forallb_forall in Ha. apply Ha, Nat.eqb_eq in Hv. congruence.
    - cbn [bind]. apply in_app_or in Hv as [Hv|Hv]; [apply repeat_spec in Hv; discriminate|].
      now rewrite (IH (S k) _ v Hw Hv Hc). }
  split.
  - intros Hc. destruct (Hok (bl s) 0 0 Hw Hc) as (l' & El).
    pose proof (copy_of_aos_same dup copyable g s) as Es. unfold copy_of in Es. rewrite El in Es. cbn [bind] in Es.
    destruct (copy_of_aos dup copyable g s) as [r w] eqn:Ec. cbn [fst] in Es. subst r.
    pose proof (copy_of_aos_ok dup copyable g s _ w Ec) as ->.
    eexists. split; [reflexivity|]. split; [eapply ra_copy; eauto|].
    pose proof (copy_of_aos_same dup copyable g s) as Es. rewrite Ec in Es. cbn [fst] in Es.
    destruct (copy_spec cat dup copyable Hdup g s _ H (eq_sym Es)) as (G' & _ & F').
    change (map (option_map dup) (flat s)) with (map (odup dup) (flat s)).
    rewrite <- F'. now apply (shows_flat cat).
  - intros v Hv Hc. pose proof (Hbad (bl s) 0 0 v Hw Hv Hc) as El.
    pose proof (copy_of_aos_same dup copyable g s) as Es. unfold copy_of in Es. rewrite El in Es. cbn [bind] in Es.
    destruct (copy_of_aos dup copyable g s) as [r w] eqn:Ec. cbn [fst] in Es. subst r.
    exists w. split; [reflexivity|]. exact (copy_of_aos_lost cat dup copyable g s _ w H Ec).
Qed.

(** ** C74: clone *)

(** The clone shows the cloned entries in the same blocks, which have all been
    reported, and behaves as a container of its own from then on. *)
Theorem C74_clone : forall (clone : V -> V) (cloneable : nat -> bool),
  (forall v, cat (clone v) = cat v) ->
  forall g s l,
  (reach anyop s \/ reach_aos anyop s) -> shows s l ->
  (forall v, In (Some v) l -> cloneable (cat v) = true) ->
  exists s', clone_of clone cloneable g s = Ok s' /\ shows s' (map (option_map clone) l) /\
    (forall i, block s' i = block s i) /\
    acq s' = blocks_held s' /\ rel s' = [] /\ freed s' = [] /\
    (forall x, In x (blocks_held s') -> fst (fst x) = g) /\ NoDup (map fst (blocks_held s')) /\
    (forall os, legal_all cat managed os (map (option_map clone) l) ->
       (exists s'', run cat managed os s' = Ok s'' /\ shows s'' (run_spec os (map (option_map clone) l))) /\
       (exists s'', run_aos cat managed os s' = Ok s'' /\ shows s'' (run_spec os (map (option_map clone) l)))).
Proof using Hdup.
  intros clone cloneable Hclone g s l Hr Hs Hc.
  assert (good cat s) as H.
  { destruct Hr as [Hr|Hr]; [exact (reach_good cat managed dup copyable Hdup _ _ Hr)|now good_of Hr]. }
  pose proof (shows_eq cat s l H Hs) as ->. pose proof H as (Hw & _).
  assert (forall l k p, wfl cat p l -> (forall v, In (Some v) (flatl l) -> cloneable (cat v) = true) ->
    exists l', copy_bl clone cloneable g k l = Ok l' /\
      map (fun b => (dcat (bd b), bp b, bs b)) l' = map (fun b => (dcat (bd b), bp b, bs b)) l /\
      (forall x, In x (held l') -> fst (fst x) = g /\ k <= snd (fst x)) /\ NoDup (map fst (held l'))) as Hok.
  { clear. intros l. induction l as [|b t IH]; intros k p Hw Hc.
    { exists []. split; [reflexivity|]. split; [reflexivity|]. split; [intros x []|constructor]. }
    cbn [wfl] in Hw. destruct Hw as (_ & [Hz Hok] & Hw).
    destruct (IH (S k) _ Hw) as (t' & Et & Eb' & Hg & Hn).
    { intros v Hv. apply Hc. rewrite flatl_cons. apply in_or_app. auto. }
    cbn [copy_bl]. unfold okd in Hok. destruct (bd b) as [e|] eqn:Eb.
    - destruct Hok as [Hl Ha]. unfold copy_data.
      destruct (ev e) as [|v0 vs] eqn:Ev; [simpl in Hl; lia|].
      assert (cloneable (ecat e) = true) as Hce.
      { cbn in Ha. apply andb_prop in Ha as [Ha _]. apply Nat.eqb_eq in Ha. rewrite <- Ha.
        apply Hc. rewrite flatl_cons. apply in_or_app. left. unfold flatb. rewrite Eb, Ev. now left. }
      rewrite Hce. cbn [bind]. rewrite Et. cbn [bind]. eexists. split; [reflexivity|].
      cbn [map bd bp bs dcat option_map ecat]. rewrite Eb', Eb. split; [reflexivity|].
      unfold held in *. cbn [flat_map bd app map eid ecat fst]. split.
      + intros x [<-|Hx]; [cbn; auto|]. destruct (Hg x Hx). split; [auto|lia].
      + constructor; [|exact Hn]. intros Hin. apply in_map_iff in Hin as (x & E1 & Hx).
        destruct (Hg x Hx) as [_ Hk]. rewrite E1 in Hk. cbn in Hk. lia.
    - cbn [bind]. rewrite Et. cbn [bind]. eexists. split; [reflexivity|].
      cbn [map bd bp bs dcat option_map]. rewrite Eb', Eb. split; [reflexivity|].
      unfold held in *. cbn [flat_map bd app]. split; [|exact Hn].
      intros x Hx. destruct (Hg x Hx). split; [auto|lia]. }
  destruct (Hok (bl s) 0 0 Hw Hc) as (l' & El & Eb & Hg & Hn).
  assert (copy_of clone cloneable g s = Ok (ST l' (cs s) (length l') g (held l') [] [])) as Ec
    by (unfold copy_of; now rewrite El).
  destruct (copy_spec cat clone cloneable Hclone g s _ H Ec) as (G' & _ & F').
  change (map (option_map clone) (flat s)) with (map (odup clone) (flat s)). rewrite <- F'.
  eexists. split; [exact Ec|]. split; [now apply (shows_flat cat)|]. split; [|split; [|split; [|split; [|split; [|split]]]]].
  - intros i. unfold block. cbn [bl].
    assert (nth_error (map (fun b => (dcat (bd b), bp b, bs b)) l') i =
            nth_error (map (fun b => (dcat (bd b), bp b, bs b)) (bl s)) i) as E by now rewrite Eb.
    rewrite !nth_error_map in E.
    destruct (nth_error l' i), (nth_error (bl s) i); cbn in E; try discriminate; auto.
  - reflexivity.
  - reflexivity.
  - reflexivity.
  - intros x Hx. apply Hg. exact Hx.
  - exact Hn.
  - clear - G'. intros os. revert G'. generalize (ST l' (cs s) (length l') g (held l') [] []).
    intros s0 Hg Hl. split.
    + revert s0 Hg Hl. induction os as [|o os IH]; intros s0 Hg; cbn [legal_all run run_spec].
      * intros _. exists s0. split; [reflexivity|]. now apply (shows_flat cat).
      * intros [H1 H2]. pose proof (exec_spec cat managed o s0 Hg H1) as He.
        destruct (spec o (flat s0)) as [l1|].
        -- apply wp_ok in He as (s1 & E & G1 & F1 & _). rewrite E. subst l1. now apply IH.
        -- rewrite He. now apply IH.
    + revert s0 Hg Hl. induction os as [|o os IH]; intros s0 Hg; cbn [legal_all run_aos run_spec].
      * intros _. exists s0. split; [reflexivity|]. now apply (shows_flat cat).
      * intros [H1 H2]. pose proof (exec_aos_spec cat managed o s0 Hg H1) as He.
        destruct (spec o (flat s0)) as [l1|].
        -- apply wp_ok in He as (s1 & E & G1 & F1 & _). rewrite E. subst l1. now apply IH.
        -- rewrite He. now apply IH.
Qed.

(** A container with an entry that cannot be cloned is not cloned. *)
Theorem C74_refused : forall (clone : V -> V) (cloneable : nat -> bool) g s l v,
  (reach anyop s \/ reach_aos anyop s) -> shows s l ->
  In (Some v) l -> cloneable (cat v) = false ->
  clone_of clone cloneable g s = Throw E_element_block.
Proof using Hdup.
  intros clone cloneable g s l v Hr Hs Hv Hc.
  assert (good cat s) as H.
  { destruct Hr as [Hr|Hr]; [exact (reach_good cat managed dup copyable Hdup _ _ Hr)|now good_of Hr]. }
  pose proof (shows_eq cat s l H Hs) as ->. destruct H as (Hw & _).
  unfold clone_of, copy_of.
  enough (forall l k p, wfl cat p l -> In (Some v) (flatl l) ->
    copy_bl clone cloneable g k l = Throw E_element_block) as E by now rewrite (E (bl s) 0 0 Hw Hv).
  clear - Hc. intros l. induction l as [|b t IH]; intros k p Hw Hv; [destruct Hv|].
  cbn [wfl] in Hw. destruct Hw as (_ & [Hz Hok] & Hw). rewrite flatl_cons in Hv.
  cbn [copy_bl]. unfold okd, flatb in *. destruct (bd b) as [e|] eqn:Eb.
  - unfold copy_data. destruct (cloneable (ecat e)) eqn:Ee; [|reflexivity]. cbn [bind].
    apply in_app_or in Hv as [Hv|Hv]; [|now rewrite (IH (S k) _ Hw Hv)].
    apply in_map_iff in Hv as (v' & [= ->] & Hv). destruct Hok as [_ Ha].
    unfold all_cat in Ha. rewrite forallb_forall in Ha. apply Ha, Nat.eqb_eq in Hv. congruence.
  - cbn [bind]. apply in_app_or in Hv as [Hv|Hv]; [apply repeat_spec in Hv; discriminate|].
    now rewrite (IH (S k) _ Hw Hv).
Qed.

End T.

(** ** Cases *)

(** The value type of MtvProps.v: types 5 and up are managed; here type 7 cannot be
    copied. *)
Definition ycopy (c : nat) : bool := negb (c =? 7).
Notation yreach := (@reach_aos xv xcat xman xdup ycopy).

Lemma run_aos_reach os g n (s : xst) :
  legal_all xcat xman os (repeat None n) -> run_aos xcat xman os (mk_size g n) = Ok s ->
  yreach anyop s /\ shows s (run_spec os (repeat None n)).
Proof.
  intros Hl E.
  destruct (C73_histories xcat xman xdup ycopy xdup_cat os (mk_size g n) (repeat None n)
              (ra_size _ _ _ _ _ g n) (size_shows g n) Hl) as (s' & E' & R & S').
  rewrite E in E'. injection E' as <-. auto.
Qed.

(** Blocks of four types and an empty block; the last insert is the one that the
    other layout reports wrongly. *)
Definition os8 : list (@op xv) :=
  [OSetRange None 0 [(1, 10); (1, 11)]; OSet None 3 (5, 50); OInsert None 0 [(2, 20); (2, 21)];
   OInsert None 5 [(7, 70)]].
Definition l8 : list (option xv) :=
  [Some (2, 20); Some (2, 21); Some (1, 10); Some (1, 11); None; Some (7, 70); Some (5, 50); None; None].
Definition s8 : xst := match run_aos xcat xman os8 (mk_size 0 6) with Ok s => s | _ => mk_empty 0 end.
Lemma os8_legal : legal_all xcat xman os8 (repeat None 6).
Proof. unfold os8. xlegal. Qed.
Lemma s8_reach : yreach anyop s8 /\ shows s8 l8.
Proof. apply (run_aos_reach os8 0 6 s8 os8_legal). vm_compute. reflexivity. Qed.

Example C73_case :
  legal_all xcat xman os8 (repeat None 6) /\ none_bad (unmerged xcat) os8 (repeat None 6) /\
  none_bad (leaky xcat xman) os8 (repeat None 6) /\ none_bad (exempt_aos xcat) os8 (repeat None 6) /\
  ~ none_bad (event_exempt xcat) os8 (repeat None 6) /\
  map (fun i => block s8 i) (seq 0 7) =
    [Some (Some 2, 0, 2); Some (Some 1, 2, 2); Some (None, 4, 1); Some (Some 7, 5, 1); Some (Some 5, 6, 1);
     Some (None, 7, 2); None].
Proof.
  split; [exact os8_legal|].
  split; [unfold os8; repeat (eapply none_cons; [cbn [unmerged]; try tauto|vm_compute; reflexivity|]);
          try exact I; intros [H _]; discriminate H|].
  split; [unfold os8; repeat (eapply none_cons; [cbn [leaky]; try tauto|vm_compute; reflexivity|]);
          try exact I; intros [H _]; discriminate H|].
  split; [unfold os8, exempt_aos; repeat (eapply none_cons; [cbn [silent unmerged]; try tauto|vm_compute; reflexivity|]);
          [|exact I]; intros [(c & _ & _ & H)|[H _]]; [specialize (H 0 ltac:(lia))|]; discriminate H|].
  split; [|vm_compute; reflexivity].
  intros (_ & _ & H & _). apply H. cbn [event_exempt]. exists (1, 10).
  split; [reflexivity|]. split; [discriminate|]. left. reflexivity.
Qed.

Example C73_insert_case : hint_ok (Some (Some 1)) l8 /\ one_type xcat [(2, 5); (2, 6)] /\ 2 < size s8 /\
  exists s' i, insert_aos xcat (Some (Some 1)) 2 [(2, 5); (2, 6)] s8 = Ok (s', i) /\ i = 0 /\ size s' = 11 /\
    get 3 s' = Ok (Some (2, 6)) /\ get 4 s' = Ok (Some (1, 10)).
Proof.
  split; [right; discriminate|]. split; [xone|]. split; [vm_compute; lia|].
  eexists. eexists. split; [vm_compute; reflexivity|]. vm_compute. auto.
Qed.

Example C73_two_case : 2 <= 5 /\ 5 < size s8 /\ 1 + (5 - 2) < size s8 /\
  (exists s' d' i, transfer xman None 2 5 1 s8 s8 = Ok (s', d', i) /\ get 4 d' = Ok (Some (7, 70)) /\ get 5 s' = Ok None) /\
  (exists s' o', swap_range xcat xman 2 5 1 s8 s8 = Ok (s', o') /\ get 2 s' = Ok (Some (2, 21)) /\ get 4 o' = Ok (Some (7, 70))).
Proof.
  split; [lia|]. split; [vm_compute; lia|]. split; [vm_compute; lia|]. split.
  - eexists. eexists. eexists. split; [vm_compute; reflexivity|]. vm_compute. auto.
  - eexists. eexists. split; [vm_compute; reflexivity|]. vm_compute. auto.
Qed.

Example C73_equal_case :
  exists a b, run_aos xcat xman os5 (mk_size 3 3) = Ok a /\
    run_aos xcat xman [OInsert None 0 [(1, 10); (1, 11)]; OSet None 2 (2, 20); OResize 3] (mk_size 4 3) = Ok b /\
    eq_aos xeq a b = true /\ eq_aos xeq a s8 = false.
Proof.
  eexists. eexists. split; [vm_compute; reflexivity|]. split; [vm_compute; reflexivity|].
  split; vm_compute; reflexivity.
Qed.

(** A range set as in finding M8 is not reported in this layout either. *)
Theorem C73_events_refuted :
  exists (os : list (@op xv)) s p, legal_all xcat xman os (repeat None 5) /\
     run_aos xcat xman os (mk_size 0 5) = Ok s /\
     count p (acq s) <> count p (rel s) + count p (blocks_held s).
Proof.
  exists [OSetRange None 0 [(1, 1); (1, 2); (1, 3)]; OSet None 3 (2, 1); OSetRange None 0 [(2, 5); (2, 6)]]. eexists.
  exists (fun x => snd (fst x) =? 0). split; [xlegal|]. split; [vm_compute; reflexivity|].
  vm_compute. discriminate.
Qed.

(** Finding A1: a copy that fails half way loses the element blocks made before; the
    other layout frees them. *)
Theorem C73_copy_refuted :
  exists (s : xst) l w, yreach anyop s /\ shows s l /\
    copy_of_aos xdup ycopy 9 s = (Throw E_element_block, w) /\
    map ev w = [[(2, 20); (2, 21)]; [(1, 10); (1, 11)]].
Proof.
  exists s8, l8. eexists. split; [apply s8_reach|]. split; [apply s8_reach|].
  split; [vm_compute; reflexivity|]. reflexivity.
Qed.
Example C73_copy_case :
  In (Some (7, 70)) l8 /\ ycopy (xcat (7, 70)) = false /\
  (forall v, In (Some v) l2 -> ycopy (xcat v) = true) /\
  exists s, run_aos xcat xman os2 (mk_size 0 8) = Ok s /\ shows s l2.
Proof.
  split; [cbn; auto 10|]. split; [reflexivity|]. split.
  - intros v Hv. cbn in Hv. repeat (destruct Hv as [Hv|Hv]; [try discriminate; injection Hv as <-; reflexivity|]).
    destruct Hv.
  - destruct (run_aos xcat xman os2 (mk_size 0 8)) as [s| |] eqn:E; [|vm_compute in E; discriminate..].
    exists s. split; [reflexivity|]. exact (proj2 (run_aos_reach os2 0 8 s os2_legal E)).
Qed.

(** Clones: type 7 cannot be copied but can be cloned, type 5 cannot be cloned. *)
Example C74_case :
  (forall v, In (Some v) [Some (2, 20); None; Some (7, 70)] -> negb (xcat v =? 5) = true) /\
  exists s s', run_aos xcat xman [OSet None 0 (2, 20); OSet None 2 (7, 70)] (mk_size 0 3) = Ok s /\
    yreach anyop s /\ shows s [Some (2, 20); None; Some (7, 70)] /\
    clone_of (fun v => (fst v, S (snd v))) (fun c => negb (c =? 5)) 4 s = Ok s' /\
    get 2 s' = Ok (Some (7, 71)) /\ acq s' = [((4, 0), 2); ((4, 2), 7)].
Proof.
  split.
  - intros v Hv. cbn in Hv. repeat (destruct Hv as [Hv|Hv]; [try discriminate; injection Hv as <-; reflexivity|]).
    destruct Hv.
  - pose (os := [OSet None 0 (2, 20); OSet None 2 (7, 70)] : list (@op xv)).
    assert (legal_all xcat xman os (repeat None 3)) as Hl by (unfold os; xlegal).
    change [OSet None 0 (2, 20); OSet None 2 (7, 70)] with os.
    destruct (run_aos xcat xman os (mk_size 0 3)) as [s| |] eqn:E; [|vm_compute in E; discriminate..].
    destruct (run_aos_reach os 0 3 s Hl E) as [R S].
    exists s. eexists. split; [reflexivity|]. split; [exact R|]. split; [exact S|].
    vm_compute in E. injection E as <-. split; [vm_compute; reflexivity|]. vm_compute. auto.
Qed.
Example C74_refused_case : In (Some (5, 50)) l8 /\ negb (xcat (5, 50) =? 5) = false.
Proof. split; [cbn; auto 10|reflexivity]. Qed.

(** One query for all the theorems of this file. *)
Definition MtvAos_theorems :=
  (@C73_histories, @C73_layouts_agree, @C73_blocks_agree_partial, @C73_insert, @C73_insert_out_of_range,
   @C73_transfer, @C73_swap, @C73_owned_once_partial, @C73_events_partial, @C73_equal_partial,
   @C73_copy_partial, @C73_events_refuted, @C73_copy_refuted, @C74_clone, @C74_refused).
Print Assumptions MtvAos_theorems.
