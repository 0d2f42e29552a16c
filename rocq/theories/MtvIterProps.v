(** Properties of the iterators of multi_type_vector (C75) and of its integrity check
    (C76). *)
From Coq Require Import List ZArith Lia Bool.
From Verif Require Import Base MtvModel MtvModel2 MtvSpec MtvProofs MtvWrap MtvBridge MtvBridge2 MtvIter MtvIterSpec MtvProps.
Import ListNotations.
Open Scope nat_scope.

Section T.
Set Default Proof Using "Type".
Context {V : Type}.
Variable cat : V -> nat.
Variable managed : nat -> bool.
Variable dup : V -> V.
Variable copyable : nat -> bool.
(** Copying a value keeps its type. *)
Hypothesis Hdup : forall v, cat (dup v) = cat v.
Notation st := (@st V).
Notation blk := (@blk V).
Notation op := (@op V).
Notation node := (@node V).
Notation iter := (@iter V).
Notation reach := (@reach V cat managed dup copyable).
Notation at_end := MtvIterSpec.at_end.

(** ** Helpers *)

Definition nd (k : nat) (b : blk) : node := NODE (dcat (bd b)) (bp b) (bs b) (bd b) k.
Definition ix (fwd : bool) (i : nat) : nat := if fwd then i else 0.

Definition okit (fwd : bool) (s : st) (it : iter) : Prop :=
  iend it = length (ordered fwd s) /\ ipos it <= iend it /\ nindex (cur it) = ix fwd (ipos it) /\
  forall b, nth_error (ordered fwd s) (ipos it) = Some b -> cur it = nd (ix fwd (ipos it)) b.

Lemma len_ordered fwd (s : st) : length (ordered fwd s) = length (bl s).
Proof. destruct fwd; [reflexivity|]. apply rev_length. Qed.

Lemma make_ok fwd (s : st) i : i <= length (ordered fwd s) ->
  exists it, make fwd s i (ix fwd i) = Ok it /\ okit fwd s it /\ ipos it = i.
Proof.
  intros H. unfold make. cbn [ipos iend]. destruct (Nat.eqb_spec i (length (ordered fwd s))) as [E|E].
  - eexists. split; [reflexivity|]. split; [|reflexivity]. repeat split; cbn [iend ipos cur nindex blank]; [lia|].
    intros b Hb. exfalso. assert (i < length (ordered fwd s)) by (apply nth_error_Some; congruence). lia.
  - destruct (nth_error (ordered fwd s) i) as [b|] eqn:Eb; [|apply nth_error_None in Eb; lia].
    unfold update_node. cbn [ipos iend cur nindex blank]. rewrite Eb. cbn [deref bind].
    eexists. split; [reflexivity|]. split; [|reflexivity]. repeat split; cbn [iend ipos cur nindex]; [lia|].
    intros b' Hb. rewrite Eb in Hb. injection Hb as <-. reflexivity.
Qed.

Lemma begin_ok fwd (s : st) : exists it, it_begin fwd s = Ok it /\ okit fwd s it /\ ipos it = 0.
Proof.
  unfold it_begin. destruct (make_ok fwd s 0 ltac:(lia)) as (it & E & H). exists it. split; [|exact H].
  rewrite <- E. f_equal. now destruct fwd.
Qed.
Lemma end_ok fwd (s : st) : exists it, it_end fwd s = Ok it /\ okit fwd s it /\ ipos it = length (ordered fwd s).
Proof.
  unfold it_end. destruct (make_ok fwd s (length (ordered fwd s)) ltac:(lia)) as (it & E & H). exists it. split; [|exact H].
  rewrite <- E. f_equal. now destruct fwd.
Qed.

Lemma inc_ok fwd (s : st) it : okit fwd s it -> ipos it < iend it ->
  exists it', inc fwd s it = Ok it' /\ okit fwd s it' /\ ipos it' = S (ipos it).
Proof.
  intros (H1 & H2 & H3 & H4) Hlt. unfold inc. rewrite (proj2 (Nat.ltb_lt _ _)) by lia. cbn [ipos iend].
  assert (Hn : (if fwd then S (nindex (cur it)) else nindex (cur it)) = ix fwd (S (ipos it))).
  { rewrite H3. now destruct fwd. }
  rewrite Hn. destruct (Nat.eqb_spec (S (ipos it)) (iend it)) as [E|E].
  - eexists. split; [reflexivity|]. split; [|reflexivity]. repeat split; cbn [iend ipos cur nindex]; [lia|lia|].
    intros b Hb. exfalso. assert (S (ipos it) < length (ordered fwd s)) by (apply nth_error_Some; congruence). lia.
  - destruct (nth_error (ordered fwd s) (S (ipos it))) as [b|] eqn:Eb; [|apply nth_error_None in Eb; lia].
    unfold update_node. cbn [ipos iend cur nindex]. rewrite Eb. cbn [deref bind].
    eexists. split; [reflexivity|]. split; [|reflexivity]. repeat split; cbn [iend ipos cur nindex]; [lia|lia|].
    intros b' Hb. rewrite Eb in Hb. injection Hb as <-. reflexivity.
Qed.

Lemma inc_undef fwd (s : st) it : okit fwd s it -> ipos it = iend it -> inc fwd s it = Undef.
Proof. intros (H1 & _) E. unfold inc. now rewrite (proj2 (Nat.ltb_ge _ _)) by lia. Qed.

Lemma dec_ok fwd (s : st) it : okit fwd s it -> 0 < ipos it ->
  exists it', dec fwd s it = Ok it' /\ okit fwd s it' /\ S (ipos it') = ipos it.
Proof.
  intros (H1 & H2 & H3 & H4) Hlt. unfold dec. destruct (ipos it) as [|i] eqn:Ei; [lia|].
  destruct (nth_error (ordered fwd s) i) as [b|] eqn:Eb; [|apply nth_error_None in Eb; lia].
  unfold update_node. cbn [ipos iend cur nindex]. rewrite Eb. cbn [deref bind ipos iend cur nindex ntype npos nsize ndata].
  assert (Hn : (if fwd then pred (nindex (cur it)) else nindex (cur it)) = ix fwd i).
  { rewrite H3. now destruct fwd. }
  rewrite Hn. eexists. split; [reflexivity|]. split; [|reflexivity]. repeat split; cbn [iend ipos cur nindex]; [lia|lia|].
  intros b' Hb. rewrite Eb in Hb. injection Hb as <-. reflexivity.
Qed.

Lemma made_ok fwd (s : st) it : made fwd s it -> okit fwd s it.
Proof.
  induction 1 as [it E|it E|i it Ef E|it it' _ IH E|it it' _ IH E|it it' _ IH E].
  - destruct (begin_ok fwd s) as (it' & E' & H & _). congruence.
  - destruct (end_ok fwd s) as (it' & E' & H & _). congruence.
  - subst fwd. unfold it_at in E. destruct (Nat.leb_spec i (length (bl s))); [|discriminate].
    destruct (make_ok true s i ltac:(rewrite len_ordered; lia)) as (it' & E' & Hk & _). cbn [ix] in E'. congruence.
  - destruct (Nat.eq_dec (ipos it) (iend it)) as [Ee|Ee]; [rewrite (inc_undef fwd s it IH Ee) in E; discriminate|].
    destruct (inc_ok fwd s it IH) as (x & Ex & Hx & _); [destruct IH as (_ & IH & _); lia|]. congruence.
  - destruct (Nat.eq_dec (ipos it) 0) as [Ee|Ee]; [unfold dec in E; rewrite Ee in E; discriminate|].
    destruct (dec_ok fwd s it IH) as (x & Ex & Hx & _); [lia|]. congruence.
  - unfold to_const in E. destruct IH as (H1 & H2 & H3 & _). rewrite H3 in E.
    destruct (make_ok fwd s (ipos it)) as (x & Ex & Hx & _); [lia|]. congruence.
Qed.

Lemma type_same_refl a : type_same a a = true.
Proof. destruct a; cbn [type_same]; [apply Nat.eqb_refl|reflexivity]. Qed.
Lemma node_eqb_refl (n : node) : node_eqb n n = true.
Proof.
  unfold node_eqb. rewrite type_same_refl, !Nat.eqb_refl. cbn [andb].
  destruct (ndata n); cbn [data_same]; rewrite ?Nat.eqb_refl; reflexivity.
Qed.

Lemma eqb_pos fwd (s : st) a b : okit fwd s a -> okit fwd s b -> iter_eqb a b = (ipos a =? ipos b).
Proof.
  intros (A1 & A2 & A3 & A4) (B1 & B2 & B3 & B4). unfold iter_eqb. rewrite A1, B1, Nat.eqb_refl, andb_true_r.
  destruct (Nat.eqb_spec (ipos a) (ipos b)) as [E|E].
  - rewrite <- E. destruct (Nat.eqb_spec (ipos a) (length (ordered fwd s))) as [Ee|Ee]; [reflexivity|]. cbn [negb andb].
    destruct (nth_error (ordered fwd s) (ipos a)) as [x|] eqn:Ex; [|apply nth_error_None in Ex; lia].
    rewrite (A4 x eq_refl). rewrite <- E in B4. rewrite (B4 x Ex). now rewrite node_eqb_refl.
  - now destruct (_ && _).
Qed.

Lemma at_end_pos fwd (s : st) it : okit fwd s it -> at_end fwd s it <-> ipos it = iend it.
Proof.
  intros H. destruct (end_ok fwd s) as (e & E & He & Hp). unfold at_end. split.
  - intros (e' & E' & Q). assert (e' = e) as -> by congruence. rewrite (eqb_pos fwd s it e H He) in Q. apply Nat.eqb_eq in Q.
    destruct H as (H1 & _). congruence.
  - intros Q. exists e. split; [exact E|]. rewrite (eqb_pos fwd s it e H He). apply Nat.eqb_eq.
    destruct H as (H1 & _). congruence.
Qed.
Lemma at_begin_pos fwd (s : st) it : okit fwd s it -> at_begin fwd s it <-> ipos it = 0.
Proof.
  intros H. destruct (begin_ok fwd s) as (e & E & He & Hp). unfold at_begin. split.
  - intros (e' & E' & Q). assert (e' = e) as -> by congruence. rewrite (eqb_pos fwd s it e H He) in Q. apply Nat.eqb_eq in Q.
    congruence.
  - intros Q. exists e. split; [exact E|]. rewrite (eqb_pos fwd s it e H He). apply Nat.eqb_eq. congruence.
Qed.

Definition nodes (fwd : bool) (i : nat) (l : list blk) : list node :=
  map (fun x => nd (ix fwd (fst x)) (snd x)) (combine (seq i (length l)) l).

Lemma walk_nodes fwd (s : st) last : okit fwd s last -> ipos last = iend last ->
  forall t it fuel, okit fwd s it -> skipn (ipos it) (ordered fwd s) = t -> length t <= fuel ->
  walk fuel fwd s it last = Ok (nodes fwd (ipos it) t).
Proof.
  intros Hl El. induction t as [|b t IH]; intros it fuel H Es Hf.
  - assert (length (skipn (ipos it) (ordered fwd s)) = 0) as Hz by now rewrite Es.
    rewrite skipn_length in Hz. pose proof H as (H1 & H2 & _). pose proof Hl as (L1 & _).
    destruct fuel; cbn [walk]; rewrite (eqb_pos fwd s it last H Hl), (proj2 (Nat.eqb_eq _ _)) by lia; reflexivity.
  - pose proof H as (H1 & H2 & H3 & H4). pose proof Hl as (L1 & _).
    assert (Hb : nth_error (ordered fwd s) (ipos it) = Some b).
    { rewrite <- (firstn_skipn (ipos it) (ordered fwd s)), Es, nth_error_app2; rewrite firstn_length, Nat.min_l by lia; [|lia].
      now rewrite Nat.sub_diag. }
    assert (ipos it < length (ordered fwd s)) by (apply nth_error_Some; congruence).
    destruct fuel as [|fuel]; cbn [length] in Hf; [lia|]. cbn [walk].
    rewrite (eqb_pos fwd s it last H Hl), (proj2 (Nat.eqb_neq _ _)) by lia.
    destruct (inc_ok fwd s it H ltac:(lia)) as (it' & E' & K & Kp). rewrite E'. cbn [bind].
    rewrite (IH it' fuel K).
    + cbn [bind]. rewrite (H4 b Hb), Kp. reflexivity.
    + rewrite Kp. replace (S (ipos it)) with (1 + ipos it) by lia.
      assert (G : forall n (l : list blk), skipn (1 + n) l = skipn 1 (skipn n l)).
      { clear. induction n as [|n IH]; intros l; [reflexivity|]. destruct l; [reflexivity|]. apply (IH l). }
      rewrite G, Es. reflexivity.
    + lia.
Qed.

Lemma walk_back_nodes fwd (s : st) first : okit fwd s first -> ipos first = 0 ->
  forall n it fuel, okit fwd s it -> ipos it = n -> n <= fuel ->
  walk_back fuel fwd s it first = Ok (rev (nodes fwd 0 (firstn n (ordered fwd s)))).
Proof.
  intros Hl El. induction n as [|n IH]; intros it fuel H Es Hf.
  - destruct fuel; cbn [walk_back]; rewrite (eqb_pos fwd s it first H Hl), (proj2 (Nat.eqb_eq _ _)) by lia; reflexivity.
  - destruct fuel as [|fuel]; [lia|]. cbn [walk_back]. rewrite (eqb_pos fwd s it first H Hl), (proj2 (Nat.eqb_neq _ _)) by lia.
    destruct (dec_ok fwd s it H ltac:(lia)) as (it' & E' & K & Kp). rewrite E'. cbn [bind].
    rewrite (IH it' fuel K ltac:(lia) ltac:(lia)). cbn [bind]. f_equal.
    pose proof H as (H1 & H2 & _). pose proof K as (K1 & K2 & K3 & K4).
    destruct (nth_error (ordered fwd s) n) as [b|] eqn:Eb; [|apply nth_error_None in Eb; lia].
    assert (ipos it' = n) as Kn by lia. rewrite Kn in K4. rewrite (K4 b Eb).
    assert (Ef : firstn (S n) (ordered fwd s) = firstn n (ordered fwd s) ++ [b]).
    { clear - Eb. revert n Eb. induction (ordered fwd s) as [|x l IHl]; intros [|n] Eb; try discriminate.
      - injection Eb as ->. reflexivity.
      - cbn [nth_error] in Eb. cbn [firstn app]. f_equal. now apply IHl. }
    rewrite Ef. unfold nodes. rewrite app_length. cbn [length]. rewrite firstn_length, Nat.min_l by lia.
    rewrite Nat.add_1_r, seq_S. cbn [Nat.add].
    assert (G : forall A B (x1 : list A) (y1 : list B) x2 y2, length x1 = length y1 ->
       combine (x1 ++ x2) (y1 ++ y2) = combine x1 y1 ++ combine x2 y2).
    { clear. induction x1 as [|a x1 IHx]; intros [|b y1] x2 y2 Hx; try discriminate; [reflexivity|].
      injection Hx as Hx. cbn [app combine]. f_equal. now apply IHx. }
    rewrite G by (rewrite seq_length, firstn_length; lia).
    rewrite map_app, rev_app_distr. reflexivity.
Qed.

Lemma nodes_index fwd i (l : list blk) : map nindex (nodes fwd i l) = map (ix fwd) (seq i (length l)).
Proof.
  revert i. induction l as [|b l IH]; intros i; [reflexivity|]. unfold nodes in *. cbn [length seq combine map].
  f_equal. apply IH.
Qed.
Lemma nodes_len fwd i (l : list blk) : length (nodes fwd i l) = length l.
Proof. unfold nodes. rewrite map_length, combine_length, seq_length. lia. Qed.
Lemma nodes_public fwd i (l : list blk) : map public (nodes fwd i l) = map (fun b => (dcat (bd b), bp b, bs b, bd b)) l.
Proof.
  revert i. induction l as [|b l IH]; intros i; [reflexivity|]. unfold nodes in *. cbn [length seq combine map].
  f_equal. apply IH.
Qed.

Lemma nodes_tiles i p (l : list blk) : wfl cat p l -> tiles cat p (nodes true i l) (flatl l).
Proof.
  revert i p. induction l as [|b l IH]; intros i p H; [reflexivity|]. destruct H as (H1 & (H2 & H3) & H4).
  unfold nodes. cbn [length seq combine map fst snd tiles nd npos]. split; [exact H1|].
  assert (Hlen : length (flatb b) = bs b).
  { unfold flatb. destruct (bd b) as [e|]; [destruct H3 as [H3 _]; now rewrite map_length|apply repeat_length]. }
  exists (flatb b), (flatl l). split; [reflexivity|]. split.
  - repeat split; cbn [nsize]; [now rewrite Hlen|intros E; rewrite E in Hlen; cbn [length] in Hlen; lia|].
    unfold flatb. cbn [ntype ndata nd]. destruct (bd b) as [e|]; cbn [dcat].
    + exists e. split; [reflexivity|]. split; [reflexivity|]. destruct H3 as [_ H3].
      unfold all_cat in H3. rewrite forallb_forall in H3. intros v Hv. apply Nat.eqb_eq. now apply H3.
    + split; [reflexivity|]. intros y Hy. now apply repeat_spec in Hy.
  - rewrite Hlen. now apply IH.
Qed.

Ltac good_of H := pose proof (reach_good cat managed dup copyable Hdup _ _ H).

(** ** C75: iterators *)

(** A walk from begin() to end() sees nodes that cover the rows in order; a walk with --
    from end() to begin() sees the same nodes in reverse.  The block index of each node,
    which is what a call uses when the iterator is passed as a hint, is its place. *)
Theorem C75_walk : forall s l,
  reach anyop s -> shows s l ->
  exists b e ns, it_begin true s = Ok b /\ it_end true s = Ok e /\
    walk (S (size s)) true s b e = Ok ns /\ tiles cat 0 ns l /\
    walk_back (S (size s)) true s e b = Ok (rev ns) /\
    map nindex ns = seq 0 (length ns).
Proof using Hdup.
  intros s l Hr Hs. good_of Hr. rename H into G. pose proof (shows_eq cat s l G Hs) as ->. pose proof G as (Hw & Hc & _).
  destruct (begin_ok true s) as (b & Eb & Kb & Pb). destruct (end_ok true s) as (e & Ee & Ke & Pe).
  assert (Hlen : length (bl s) <= size s).
  { unfold size. rewrite Hc. clear - Hw. revert Hw. generalize 0. induction (bl s) as [|x t IH]; intros p Hw; [cbn; lia|].
    destruct Hw as (_ & (Hz & _) & Hw). cbn [length tot]. specialize (IH _ Hw). lia. }
  exists b, e, (nodes true 0 (bl s)). split; [exact Eb|]. split; [exact Ee|]. split; [|split; [|split]].
  - rewrite (walk_nodes true s e Ke) with (t := bl s); [now rewrite Pb| |exact Kb|now rewrite Pb|lia].
    destruct Ke as (K & _). now rewrite Pe, K.
  - now apply nodes_tiles.
  - rewrite (walk_back_nodes true s b Kb Pb (length (bl s)) e); [|exact Ke|now rewrite Pe|lia].
    change (ordered true s) with (bl s). now rewrite firstn_all.
  - rewrite nodes_index, nodes_len. rewrite map_ext with (g := fun i => i) by reflexivity. apply map_id.
Qed.

(** The reverse iterators see the same nodes in reverse. *)
Theorem C75_reverse : forall s l b e ns,
  reach anyop s -> shows s l ->
  it_begin true s = Ok b -> it_end true s = Ok e -> walk (S (size s)) true s b e = Ok ns ->
  exists b' e' ns', it_begin false s = Ok b' /\ it_end false s = Ok e' /\
    walk (S (size s)) false s b' e' = Ok ns' /\ map public ns' = rev (map public ns) /\
    exists ns'', walk_back (S (size s)) false s e' b' = Ok ns'' /\ map public ns'' = map public ns.
Proof using Hdup.
  intros s l b e ns Hr Hs Eb Ee Ew. good_of Hr. rename H into G. pose proof G as (Hw & Hc & _).
  destruct (C75_walk s l Hr Hs) as (b0 & e0 & ns0 & E1 & E2 & E3 & _ & E5 & _).
  assert (b0 = b) by congruence. assert (e0 = e) by congruence. subst b0 e0. assert (ns0 = ns) by congruence. subst ns0.
  destruct (begin_ok true s) as (x & Ex & Kb & Pb). assert (x = b) by congruence. subst x.
  destruct (end_ok true s) as (x & Ex' & Ke & Pe). assert (x = e) by congruence. subst x.
  assert (Hlen : length (bl s) <= size s).
  { unfold size. rewrite Hc. clear - Hw. revert Hw. generalize 0. induction (bl s) as [|x t IH]; intros p Hw; [cbn; lia|].
    destruct Hw as (_ & (Hz & _) & Hw). cbn [length tot]. specialize (IH _ Hw). lia. }
  assert (ns = nodes true 0 (bl s)) as ->.
  { rewrite (walk_nodes true s e Ke) with (t := bl s) in Ew; [rewrite Pb in Ew; congruence| |exact Kb|now rewrite Pb|lia].
    destruct Ke as (K & _). now rewrite Pe, K. }
  destruct (begin_ok false s) as (b' & Eb' & Kb' & Pb'). destruct (end_ok false s) as (e' & Ee' & Ke' & Pe').
  exists b', e', (nodes false 0 (rev (bl s))). split; [exact Eb'|]. split; [exact Ee'|]. split; [|split].
  - rewrite (walk_nodes false s e' Ke') with (t := rev (bl s)); [now rewrite Pb'| |exact Kb'|now rewrite Pb'|rewrite rev_length; lia].
    destruct Ke' as (K & _). now rewrite Pe', K.
  - now rewrite !nodes_public, map_rev.
  - exists (rev (nodes false 0 (rev (bl s)))). split.
    + rewrite (walk_back_nodes false s b' Kb' Pb' (length (rev (bl s))) e'); [|exact Ke'|now rewrite Pe'|rewrite rev_length; lia].
      change (ordered false s) with (rev (bl s)). now rewrite firstn_all.
    + now rewrite map_rev, !nodes_public, map_rev, rev_involutive.
Qed.

(** Neighbouring nodes have different types, except after the range set of finding M4. *)
Theorem C75_types_differ_partial : forall s l b e ns,
  reach (fun l o => ~ unmerged cat l o) s -> shows s l ->
  it_begin true s = Ok b -> it_end true s = Ok e -> walk (S (size s)) true s b e = Ok ns ->
  forall i n n', nth_error ns i = Some n -> nth_error ns (S i) = Some n' -> ntype n <> ntype n'.
Proof using Hdup.
  intros s l b e ns Hr Hs Eb Ee Ew i n n' Hn Hn'. good_of Hr. rename H into G. pose proof G as (Hw & Hc & _).
  pose proof (reach_canon cat managed dup copyable Hdup _ s (fun l o H => H) Hr) as Hcan.
  destruct (begin_ok true s) as (x & Ex & Kb & Pb). assert (x = b) by congruence. subst x.
  destruct (end_ok true s) as (x & Ex' & Ke & Pe). assert (x = e) by congruence. subst x.
  assert (Hlen : length (bl s) <= size s).
  { unfold size. rewrite Hc. clear - Hw. revert Hw. generalize 0. induction (bl s) as [|x t IH]; intros p Hw; [cbn; lia|].
    destruct Hw as (_ & (Hz & _) & Hw). cbn [length tot]. specialize (IH _ Hw). lia. }
  assert (ns = nodes true 0 (bl s)) as ->.
  { rewrite (walk_nodes true s e Ke) with (t := bl s) in Ew; [rewrite Pb in Ew; congruence| |exact Kb|now rewrite Pb|lia].
    destruct Ke as (K & _). now rewrite Pe, K. }
  assert (T : map ntype (nodes true 0 (bl s)) = map bcat (bl s)).
  { generalize 0. clear. induction (bl s) as [|x t IH]; intros k; [reflexivity|]. unfold nodes. cbn [length seq combine map].
    f_equal. apply IH. }
  unfold canon in Hcan. rewrite <- T in Hcan. clear - Hcan Hn Hn'. revert i Hn Hn' Hcan.
  generalize (nodes true 0 (bl s)). intros ns. induction ns as [|x ns IH]; intros i Hn Hn' Hc; [destruct i; discriminate|].
  destruct ns as [|y ns]; [destruct i as [|[|i]]; discriminate|]. cbn [map chain] in Hc. destruct Hc as [Hxy Hc].
  destruct i as [|i].
  - cbn [nth_error] in Hn, Hn'. injection Hn as <-. injection Hn' as <-. exact Hxy.
  - cbn [nth_error] in Hn. apply (IH i Hn Hn'). exact Hc.
Qed.

(** ++ and --, forward and reverse: defined exactly away from end() and begin(), and
    inverse to each other. *)
Theorem C75_moves : forall fwd (s : st) (it : iter),
  made fwd s it ->
  (at_end fwd s it <-> inc fwd s it = Undef) /\
  (at_begin fwd s it <-> dec fwd s it = Undef) /\
  (forall it', inc fwd s it = Ok it' -> exists it'', dec fwd s it' = Ok it'' /\ iter_eqb it'' it = true /\ cur it'' = cur it) /\
  (forall it', dec fwd s it = Ok it' -> exists it'', inc fwd s it' = Ok it'' /\ iter_eqb it'' it = true) /\
  (forall e, inc fwd s it <> Throw e) /\ (forall e, dec fwd s it <> Throw e).
Proof.
  intros fwd s it Hm. pose proof (made_ok fwd s it Hm) as K. pose proof K as (K1 & K2 & K3 & K4).
  rewrite (at_end_pos fwd s it K), (at_begin_pos fwd s it K).
  destruct (Nat.eq_dec (ipos it) (iend it)) as [Ee|Ee].
  - pose proof (inc_undef fwd s it K Ee) as Ei. rewrite Ei.
    destruct (Nat.eq_dec (ipos it) 0) as [Eb|Eb].
    + assert (Ed : dec fwd s it = Undef) by (unfold dec; now rewrite Eb). rewrite Ed. repeat split; auto; congruence.
    + destruct (dec_ok fwd s it K ltac:(lia)) as (x & Ex & Kx & Px). rewrite Ex. repeat split; auto; try congruence.
      intros it' [= <-]. destruct (inc_ok fwd s x Kx) as (y & Ey & Ky & Py); [destruct Kx as (Kx & _); lia|].
      exists y. split; [exact Ey|]. rewrite (eqb_pos fwd s y it Ky K). apply Nat.eqb_eq. lia.
  - destruct (inc_ok fwd s it K ltac:(lia)) as (x & Ex & Kx & Px). rewrite Ex.
    assert (Hback : exists it'', dec fwd s x = Ok it'' /\ iter_eqb it'' it = true /\ cur it'' = cur it).
    { destruct (dec_ok fwd s x Kx ltac:(lia)) as (y & Ey & Ky & Py). exists y. split; [exact Ey|].
      split; [rewrite (eqb_pos fwd s y it Ky K); apply Nat.eqb_eq; lia|].
      destruct (nth_error (ordered fwd s) (ipos it)) as [b|] eqn:Eb; [|apply nth_error_None in Eb; lia].
      rewrite (K4 b eq_refl). destruct Ky as (_ & _ & _ & Ky). assert (ipos y = ipos it) as Hp by lia. rewrite Hp in Ky. now apply Ky. }
    destruct (Nat.eq_dec (ipos it) 0) as [Eb|Eb].
    + assert (Ed : dec fwd s it = Undef) by (unfold dec; now rewrite Eb). rewrite Ed. repeat split; auto; try congruence.
      intros it' [= <-]. exact Hback.
    + destruct (dec_ok fwd s it K ltac:(lia)) as (z & Ez & Kz & Pz). rewrite Ez. repeat split; auto; try congruence.
      * intros it' [= <-]. exact Hback.
      * intros it' [= <-]. destruct (inc_ok fwd s z Kz) as (y & Ey & Ky & Py); [destruct Kz as (Kz & _); lia|].
        exists y. split; [exact Ey|]. rewrite (eqb_pos fwd s y it Ky K). apply Nat.eqb_eq. lia.
Qed.

(** Comparison: an equivalence that holds exactly for iterators at the end or at the same
    block; the const_iterator made from an iterator is equal to it and shows the same. *)
Theorem C75_equal : forall fwd (s : st) (it it' : iter),
  reach anyop s -> made fwd s it -> made fwd s it' ->
  (iter_eqb it it' = true <->
   (at_end fwd s it /\ at_end fwd s it') \/
   (~ at_end fwd s it /\ ~ at_end fwd s it' /\ npos (cur it) = npos (cur it') /\ cur it = cur it')) /\
  (~ at_end fwd s it -> ~ at_end fwd s it' -> npos (cur it) = npos (cur it') -> iter_eqb it it' = true) /\
  exists c, to_const fwd s it = Ok c /\ iter_eqb c it = true /\ (~ at_end fwd s it -> cur c = cur it).
Proof using Hdup.
  intros fwd s it it' Hr Hm Hm'. good_of Hr. rename H into G.
  pose proof (made_ok fwd s it Hm) as K. pose proof (made_ok fwd s it' Hm') as K'.
  pose proof K as (K1 & K2 & K3 & K4). pose proof K' as (L1 & L2 & L3 & L4).
  rewrite (at_end_pos fwd s it K), (at_end_pos fwd s it' K'), (eqb_pos fwd s it it' K K').
  assert (Hinj : ipos it <> iend it -> ipos it' <> iend it' -> npos (cur it) = npos (cur it') -> ipos it = ipos it').
  { intros H1 H2 Hp.
    destruct (nth_error (ordered fwd s) (ipos it)) as [b|] eqn:Eb; [|apply nth_error_None in Eb; lia].
    destruct (nth_error (ordered fwd s) (ipos it')) as [b'|] eqn:Eb'; [|apply nth_error_None in Eb'; lia].
    rewrite (K4 b eq_refl), (L4 b' eq_refl) in Hp. cbn [npos nd] in Hp.
    assert (ND : NoDup (map bp (ordered fwd s))).
    { assert (ND : NoDup (map bp (bl s))).
      { destruct G as (Hw & _). revert Hw. generalize 0. clear. induction (bl s) as [|x t IH]; intros p Hw; [constructor|].
        destruct Hw as (H1 & (H2 & _) & H4). cbn [map]. constructor; [|now apply (IH _ H4)]. rewrite H1.
        assert (Hlow : forall q l, wfl cat q l -> forall y, In y (map bp l) -> q <= y).
        { clear. intros q l. revert q. induction l as [|z l IHl]; intros q Hw y Hy; [destruct Hy|].
          destruct Hw as (W1 & _ & W3). cbn [map] in Hy. destruct Hy as [<-|Hy]; [lia|]. specialize (IHl _ W3 _ Hy). lia. }
        intros Hin. specialize (Hlow _ _ H4 _ Hin). lia. }
      destruct fwd; [exact ND|]. cbn [ordered]. rewrite map_rev. now apply NoDup_rev. }
    rewrite NoDup_nth_error in ND. apply ND.
    - rewrite map_length. apply nth_error_Some. congruence.
    - rewrite !nth_error_map, Eb, Eb'. cbn [option_map]. now rewrite Hp. }
  split; [|split].
  - rewrite Nat.eqb_eq. split.
    + intros E. destruct (Nat.eq_dec (ipos it) (iend it)) as [Ee|Ee]; [left; split; [exact Ee|congruence]|].
      right. split; [exact Ee|]. split; [congruence|].
      destruct (nth_error (ordered fwd s) (ipos it)) as [b|] eqn:Eb; [|apply nth_error_None in Eb; lia].
      rewrite <- E in L4. rewrite (K4 b eq_refl), (L4 b Eb). split; reflexivity.
    + intros [[H1 H2]|(H1 & H2 & Hp & _)]; [congruence|now apply Hinj].
  - intros H1 H2 Hp. apply Nat.eqb_eq. now apply Hinj.
  - unfold to_const. rewrite K3. destruct (make_ok fwd s (ipos it) ltac:(lia)) as (c & Ec & Kc & Pc).
    exists c. split; [exact Ec|]. split; [rewrite (eqb_pos fwd s c it Kc K); now apply Nat.eqb_eq|].
    intros H. rewrite (at_end_pos fwd s it K) in H. destruct (nth_error (ordered fwd s) (ipos it)) as [b|] eqn:Eb; [|apply nth_error_None in Eb; lia].
    rewrite (K4 b eq_refl). destruct Kc as (_ & _ & _ & Kc). rewrite Pc in Kc. now apply Kc.
Qed.

(** The iterator that a call returns for a block with row [pos] shows the value of that
    row.  (C37 to C41 state of which row the returned block is.) *)
Theorem C75_returned : forall s l i pos x,
  reach anyop s -> shows s l -> in_block s i pos -> nth_error l pos = Some x ->
  exists it, it_at s i = Ok it /\ made true s it /\ nindex (cur it) = i /\
    npos (cur it) <= pos < npos (cur it) + nsize (cur it) /\
    ntype (cur it) = option_map cat x /\
    match x with
    | Some v => exists e, ndata (cur it) = Some e /\ nth_error (ev e) (pos - npos (cur it)) = Some v
    | None => ndata (cur it) = None
    end.
Proof using Hdup.
  intros s l i pos x Hr Hs (c & p & n & Hb & Hin) Hx.
  good_of Hr. rename H into G. pose proof (shows_eq cat s l G Hs) as ->.
  unfold block in Hb. destruct (nth_error (bl s) i) as [b|] eqn:Eb; [|discriminate].
  injection Hb as Hc Hbp Hbs. assert (i < length (bl s)) as Hi by (apply nth_error_Some; congruence).
  destruct (make_ok true s i ltac:(cbn [ordered]; lia)) as (it & Ei & Ki & Pi). cbn [ix] in Ei.
  assert (Ea : it_at s i = Ok it) by (unfold it_at; now rewrite (proj2 (Nat.leb_le _ _)) by lia).
  exists it. split; [exact Ea|]. split; [now apply m_at with i|].
  destruct Ki as (_ & _ & Kx & Ki). rewrite Pi in Ki, Kx. cbn [ordered] in Ki.
  split; [exact Kx|]. rewrite (Ki b Eb). cbn [ntype npos nsize ndata nd].
  split; [lia|]. destruct G as (Hw & _). destruct (nth_error_split _ _ Eb) as (q & t & El & Hq).
  unfold flat in Hx. rewrite El in Hx, Hw.
  assert (W : forall q p, wfl cat p (q ++ b :: t) -> length (flatl q) + p = bp b /\ okb cat b).
  { clear. induction q as [|y q IH]; intros p Hw.
    - destruct Hw as (H1 & H2 & _). cbn [flatl flat_map length]. split; [lia|exact H2].
    - destruct Hw as (H1 & (H2 & H3) & H4). destruct (IH _ H4) as (I1 & I2). split; [|exact I2].
      change (flatl (y :: q)) with (flatb y ++ flatl q). rewrite app_length.
      assert (Hlen : length (flatb y) = bs y).
      { unfold flatb. destruct (bd y) as [e|]; [destruct H3 as [H3 _]; now rewrite map_length|apply repeat_length]. }
      lia. }
  destruct (W q 0 Hw) as (W1 & W2 & W3). clear W.
  assert (Hsplit : flatl (q ++ b :: t) = flatl q ++ flatb b ++ flatl t).
  { unfold flatl. rewrite flat_map_app. reflexivity. }
  rewrite Hsplit in Hx.
  rewrite nth_error_app2 in Hx by lia. replace (pos - length (flatl q)) with (pos - bp b) in Hx by lia.
  destruct (bd b) as [e|] eqn:Ed; cbn [dcat].
  - destruct W3 as [W3 W4]. assert (Hf : flatb b = map Some (ev e)) by (unfold flatb; now rewrite Ed).
    rewrite Hf in Hx. rewrite nth_error_app1 in Hx by (rewrite map_length; lia).
    rewrite nth_error_map in Hx. destruct (nth_error (ev e) (pos - bp b)) as [v|] eqn:Ev; [|discriminate].
    injection Hx as <-. cbn [option_map]. split; [|exists e; now split].
    unfold all_cat in W4. rewrite forallb_forall in W4. change (dcat (Some e)) with (Some (ecat e)). f_equal. symmetry. apply Nat.eqb_eq. apply W4.
    apply nth_error_In with (1 := Ev).
  - assert (Hf : flatb b = repeat None (bs b)) by (unfold flatb; now rewrite Ed). rewrite Hf in Hx.
    rewrite nth_error_app1 in Hx by (rewrite repeat_length; lia).
    apply nth_error_In in Hx. apply repeat_spec in Hx. subst x. now split.
Qed.

(** ** C76: the integrity check of debug builds *)

Lemma check_rest_ok (l : list blk) p k : wfl cat p l -> exists n, check_rest p k l = Ok n.
Proof.
  revert p k. induction l as [|b l IH]; intros p k H; [exists k; reflexivity|]. destruct H as (H1 & (H2 & H3) & H4).
  cbn [check_rest]. rewrite (proj2 (Nat.eqb_neq _ _)) by lia. rewrite H1, Nat.eqb_refl. cbn [negb].
  destruct (bd b) as [e|]; [|now apply IH]. destruct H3 as [H3 _]. rewrite H3, Nat.eqb_refl. cbn [negb]. now apply IH.
Qed.

(** No reachable container is refused, in either layout. *)
Theorem C76_accepts : forall s,
  reach anyop s -> check_soa s = Ok tt /\ check_aos s = Ok tt.
Proof using Hdup.
  intros s Hr. good_of Hr. destruct H as (Hw & _). unfold check_soa, check_aos. destruct (bl s) as [|b t]; [now split|].
  destruct Hw as (H1 & (H2 & H3) & H4). rewrite (proj2 (Nat.eqb_neq (bs b) 0)) by lia. rewrite andb_false_r.
  cbn [Nat.add] in H4. destruct (check_rest_ok t (bs b) (bs b) H4) as (n & ->). now split.
Qed.

Lemma check_rest_iff (l : list blk) p k :
  (exists n, check_rest p k l = Ok n) <->
  forall i b, nth_error l i = Some b ->
    bp b = p + sum_sizes (firstn i l) /\ 0 < bs b /\ (forall e, bd b = Some e -> length (ev e) = bs b).
Proof.
  revert p k. induction l as [|x l IH]; intros p k.
  - split; [intros _ [|i] b; discriminate|]. intros _. now exists k.
  - cbn [check_rest]. split.
    + intros (n & E). destruct (Nat.eqb_spec (bs x) 0) as [Z|Z]; [discriminate|].
      destruct (Nat.eqb_spec (bp x) p) as [P|P]; cbn [negb] in E; [|discriminate].
      assert (D : (forall e, bd x = Some e -> length (ev e) = bs x) /\ check_rest (p + bs x) (k + bs x) l = Ok n).
      { destruct (bd x) as [e|]; [|split; [discriminate|exact E]].
        destruct (Nat.eqb_spec (length (ev e)) (bs x)) as [L|L]; cbn [negb] in E; [|discriminate].
        split; [|exact E]. intros e' [= <-]. exact L. }
      destruct D as [D E']. intros [|i] b Hb.
      * injection Hb as <-. cbn [firstn]. unfold sum_sizes. cbn [map list_sum fold_right]. repeat split; [lia|lia|exact D].
      * cbn [nth_error] in Hb. destruct (proj1 (IH _ _) (ex_intro _ n E') i b Hb) as (B1 & B2 & B3).
        cbn [firstn]. unfold sum_sizes in *. cbn [map]. change (list_sum (bs x :: ?y)) with (bs x + list_sum y).
        cbn [list_sum fold_right]. repeat split; [|exact B2|exact B3]. fold (list_sum (map (@bs V) (firstn i l))). lia.
    + intros H. destruct (H 0 x eq_refl) as (H1 & H2 & H3). cbn [firstn] in H1. unfold sum_sizes in H1. cbn in H1.
      rewrite (proj2 (Nat.eqb_neq _ _)) by lia. rewrite (proj2 (Nat.eqb_eq (bp x) p)) by lia. cbn [negb].
      assert (T : exists n, check_rest (p + bs x) (k + bs x) l = Ok n).
      { apply IH. intros i b Hb. destruct (H (S i) b Hb) as (B1 & B2 & B3). cbn [firstn] in B1.
        unfold sum_sizes in *. cbn [map list_sum fold_right] in B1. fold (list_sum (map (@bs V) (firstn i l))) in B1.
        repeat split; [lia|exact B2|exact B3]. }
      destruct (bd x) as [e|]; [|exact T]. now rewrite (H3 e eq_refl), Nat.eqb_refl.
Qed.

Lemma check_rest_cases (l : list blk) p k : (exists n, check_rest p k l = Ok n) \/ check_rest p k l = Throw E_integrity.
Proof.
  revert p k. induction l as [|x l IH]; intros p k; cbn [check_rest]; [left; now exists k|].
  destruct (bs x =? 0); [now right|]. destruct (negb (bp x =? p)); [now right|].
  destruct (bd x) as [e|]; [|apply IH]. destruct (negb _); [now right|apply IH].
Qed.

(** Whatever the blocks look like, the check refuses exactly when a block after the first
    one is unsound or, with some exceptions, the first one is empty.
    Missing for the full statement, which would have [all_sound s] on the right: see
    C76_check_refuted. *)
Theorem C76_check_partial : forall s : st,
  (check_aos s = Ok tt <->
     (forall i b, nth_error (bl s) (S i) = Some b -> block_sound (bl s) (S i) b) /\
     (forall b, nth_error (bl s) 0 = Some b -> 0 < bs b)) /\
  (check_soa s = Ok tt <->
     (forall i b, nth_error (bl s) (S i) = Some b -> block_sound (bl s) (S i) b) /\
     (forall b, bl s = [b] -> 0 < bs b)) /\
  (check_aos s <> Ok tt -> check_aos s = Throw E_integrity) /\
  (check_soa s <> Ok tt -> check_soa s = Throw E_integrity) /\
  (all_sound s -> check_aos s = Ok tt /\ check_soa s = Ok tt).
Proof.
  intros s.
  assert (R : forall (b : blk) t, (forall i b', nth_error (b :: t) (S i) = Some b' -> block_sound (b :: t) (S i) b') <->
     exists n, check_rest (bs b) (bs b) t = Ok n).
  { intros b t. rewrite check_rest_iff. split; intros H i b' Hb; specialize (H i b' Hb); unfold block_sound in *;
      cbn [firstn] in *; unfold sum_sizes in *; cbn [map list_sum fold_right] in *; exact H. }
  assert (Ha : check_aos s = Ok tt <->
     (forall i b, nth_error (bl s) (S i) = Some b -> block_sound (bl s) (S i) b) /\
     (forall b, nth_error (bl s) 0 = Some b -> 0 < bs b)).
  { unfold check_aos. destruct (bl s) as [|b t].
    - split; [|reflexivity]. intros _. split; [intros i b; discriminate|intros b; discriminate].
    - rewrite R. destruct (Nat.eqb_spec (bs b) 0) as [Z|Z].
      + split; [discriminate|]. intros [_ H]. specialize (H b eq_refl). lia.
      + split.
        * intros E. destruct (check_rest (bs b) (bs b) t) as [n| |] eqn:Ec; [|discriminate..].
          split; [now exists n|]. intros b' [= <-]. lia.
        * intros [(n & ->) _]. reflexivity. }
  assert (Hso : check_soa s = Ok tt <->
     (forall i b, nth_error (bl s) (S i) = Some b -> block_sound (bl s) (S i) b) /\
     (forall b, bl s = [b] -> 0 < bs b)).
  { unfold check_soa. destruct (bl s) as [|b t].
    - split; [|reflexivity]. intros _. split; [intros i b; discriminate|intros b; discriminate].
    - rewrite R. destruct ((length (b :: t) =? 1) && (bs b =? 0)) eqn:Z.
      + apply andb_true_iff in Z as [Z1 Z2]. apply Nat.eqb_eq in Z1, Z2. destruct t; [|discriminate].
        split; [discriminate|]. intros [_ H]. specialize (H b eq_refl). lia.
      + split.
        * intros E. destruct (check_rest (bs b) (bs b) t) as [n| |] eqn:Ec; [|discriminate..].
          split; [now exists n|]. intros b' [= <- ->]. cbn [length] in Z. rewrite Nat.eqb_refl in Z. cbn [andb] in Z.
          apply Nat.eqb_neq in Z. lia.
        * intros [(n & ->) _]. reflexivity. }
  split; [exact Ha|]. split; [exact Hso|]. split; [|split].
  - unfold check_aos. destruct (bl s) as [|b t]; [congruence|]. destruct (bs b =? 0); [reflexivity|].
    destruct (check_rest_cases t (bs b) (bs b)) as [(n & ->)| ->]; [cbn [bind]; congruence|reflexivity].
  - unfold check_soa. destruct (bl s) as [|b t]; [congruence|]. destruct (_ && _); [reflexivity|].
    destruct (check_rest_cases t (bs b) (bs b)) as [(n & ->)| ->]; [cbn [bind]; congruence|reflexivity].
  - intros (S1 & _ & _). rewrite Ha, Hso. split; split.
    + intros i b Hb. apply (S1 (S i) b Hb).
    + intros b Hb. apply (S1 0 b Hb).
    + intros i b Hb. apply (S1 (S i) b Hb).
    + intros b Hb. apply (S1 0 b). now rewrite Hb.
Qed.

End T.

(** ** Concrete cases *)

(** The container s2 of MtvProps.v has six blocks. *)
Example C75_case : xreach anyop s2 /\ shows s2 l2 /\
  exists b e ns, it_begin true s2 = Ok b /\ it_end true s2 = Ok e /\ walk (S (size s2)) true s2 b e = Ok ns /\
    map (fun n => (ntype n, npos n, nsize n)) ns =
      [(Some 1, 0, 2); (Some 2, 2, 1); (Some 1, 3, 2); (None, 5, 1); (Some 5, 6, 1); (None, 7, 1)].
Proof.
  split; [apply s2_reach|]. split; [apply s2_reach|].
  destruct (it_begin true s2) as [b| |] eqn:Eb; [|vm_compute in Eb; discriminate..].
  destruct (it_end true s2) as [e| |] eqn:Ee; [|vm_compute in Ee; discriminate..].
  exists b, e. vm_compute in Eb. injection Eb as <-. vm_compute in Ee. injection Ee as <-.
  eexists. split; [reflexivity|]. split; [reflexivity|]. split; vm_compute; reflexivity.
Qed.
Example C75_differ_case : exists s b e ns,
  xreach (fun l o => ~ unmerged xcat l o) s /\ shows s [Some (1, 10); Some (1, 11); Some (2, 20)] /\
  it_begin true s = Ok b /\ it_end true s = Ok e /\ walk (S (size s)) true s b e = Ok ns /\ length ns = 2.
Proof.
  destruct C45_case as (s & E & R & S'). vm_compute in E. injection E as <-.
  eexists. eexists. eexists. eexists. split; [exact R|]. split; [exact S'|].
  split; [reflexivity|]. split; [reflexivity|]. split; reflexivity.
Qed.
Example C75_made_case : exists it it' b, made false s2 it /\ made false s2 it' /\ inc false s2 it = Ok it' /\
  it_begin false s2 = Ok b /\ made false s2 b /\
  npos (cur it) = 6 /\ npos (cur it') = 5 /\ ~ at_end false s2 it /\ ~ at_begin false s2 it /\ iter_eqb it it' = false.
Proof.
  destruct (it_begin false s2) as [b| |] eqn:Eb; [|vm_compute in Eb; discriminate..].
  destruct (inc false s2 b) as [it| |] eqn:E1; [|vm_compute in Eb; injection Eb as <-; vm_compute in E1; discriminate..].
  destruct (inc false s2 it) as [it'| |] eqn:E2;
    [|vm_compute in Eb; injection Eb as <-; vm_compute in E1; injection E1 as <-; vm_compute in E2; discriminate..].
  assert (made false s2 b) as M0 by now apply m_begin.
  assert (made false s2 it) as M1 by now apply m_inc with b.
  assert (made false s2 it') as M2 by now apply m_inc with it.
  exists it, it', b. split; [exact M1|]. split; [exact M2|]. split; [exact E2|]. split; [reflexivity|]. split; [exact M0|].
  vm_compute in Eb. injection Eb as <-. vm_compute in E1. injection E1 as <-. vm_compute in E2. injection E2 as <-.
  split; [reflexivity|]. split; [reflexivity|]. split; [|split; [|reflexivity]].
  - intros (e & E & Q). vm_compute in E. injection E as <-. vm_compute in Q. discriminate.
  - intros (e & E & Q). vm_compute in E. injection E as <-. vm_compute in Q. discriminate.
Qed.
Example C75_returned_case : exists s' i, set xcat xman None 4 (2, 21) s2 = Ok (s', i) /\ in_block s' i 4 /\
  exists it, it_at s' i = Ok it /\ cur it = NODE (Some 2) 4 1 (ndata (cur it)) 3.
Proof.
  eexists. eexists. split; [vm_compute; reflexivity|]. split.
  - exists (Some 2), 4, 1. split; [reflexivity|lia].
  - eexists. split; vm_compute; reflexivity.
Qed.

(** Finding M4 seen through iterators: two neighbouring nodes of one type. *)
Theorem C75_types_differ_refuted : exists (s : xst) b e ns n n',
  xreach anyop s /\ it_begin true s = Ok b /\ it_end true s = Ok e /\ walk (S (size s)) true s b e = Ok ns /\
  nth_error ns 0 = Some n /\ nth_error ns 1 = Some n' /\ ntype n = Some 1 /\ ntype n' = Some 1.
Proof.
  exists s4. eexists. eexists. eexists. eexists. eexists. split; [apply s4_reach|].
  split; [vm_compute; reflexivity|]. split; [vm_compute; reflexivity|]. split; [vm_compute; reflexivity|].
  split; [reflexivity|]. split; [reflexivity|]. split; reflexivity.
Qed.

(** Finding M9: three of the tests build an exception and do not throw it.  So the check
    accepts: neighbours of one type, even in a container that calls of the API built; a
    first block at position 3; a wrong total size.  It does not look at the number of
    values of the first block, and in the SoA layout it accepts a first block of size
    zero. *)
Definition eb (k : nat) (vs : list xv) : @eblk xv := EB (0, k) 1 vs.
Theorem C76_check_refuted :
  (exists s : xst, xreach anyop s /\ ~ all_sound s /\ check_soa s = Ok tt /\ check_aos s = Ok tt) /\
  let s b n := ST b n 9 0 [] [] [] : xst in
  (forall x, In x [s [BK 3 2 None; BK 2 1 (Some (eb 1 [(1, 5)]))] 3;
                   s [BK 0 2 None; BK 2 1 (Some (eb 1 [(1, 5)]))] 7;
                   s [BK 0 2 (Some (eb 0 [(1, 5)])); BK 2 1 None] 3] ->
     ~ all_sound x /\ check_soa x = Ok tt /\ check_aos x = Ok tt) /\
  (~ all_sound (s [BK 0 0 None; BK 0 1 (Some (eb 1 [(1, 5)]))] 1) /\
   check_soa (s [BK 0 0 None; BK 0 1 (Some (eb 1 [(1, 5)]))] 1) = Ok tt).
Proof.
  split; [|split].
  - exists s4. split; [apply s4_reach|]. split; [|split; vm_compute; reflexivity].
    intros (_ & H & _). refine (H 0 _ _ _ _ _); vm_compute; reflexivity.
  - intros x [<-|[<-|[<-|[]]]]; (split; [|split; vm_compute; reflexivity]).
    + intros (H & _). destruct (H 0 _ eq_refl) as (H0 & _). discriminate.
    + intros (_ & _ & H). discriminate.
    + intros (H & _). destruct (H 0 _ eq_refl) as (_ & _ & H0). specialize (H0 _ eq_refl). discriminate.
  - split; [|vm_compute; reflexivity]. intros (H & _). destruct (H 0 _ eq_refl) as (_ & H0 & _). cbn in H0. lia.
Qed.
Example C76_case : xreach anyop s2 /\ all_sound s2 /\
  check_soa (ST [BK 0 2 None; BK 3 1 (Some (eb 1 [(1, 5)]))] 3 9 0 [] [] []) = Throw E_integrity /\
  check_aos (ST [BK 0 2 None; BK 2 1 (Some (eb 1 []))] 3 9 0 [] [] []) = Throw E_integrity.
Proof.
  split; [apply s2_reach|]. split; [|split; reflexivity].
  let v := eval vm_compute in s2 in replace s2 with v by (vm_compute; reflexivity).
  split; [|split; [|reflexivity]]; cbn [bl].
  - intros i b Hb. do 6 (destruct i as [|i]; [injection Hb as <-; repeat split; cbn; try lia; intros e [= <-]; reflexivity|]).
    destruct i; discriminate.
  - intros i b b' Hb Hb'. do 6 (destruct i as [|i]; [injection Hb as <-; try (injection Hb' as <-); cbn; discriminate|]).
    destruct i; discriminate.
Qed.

(** One query for all the theorems of this file. *)
Definition MtvIter_theorems :=
  (@C75_walk, @C75_reverse, @C75_types_differ_partial, @C75_types_differ_refuted, @C75_moves, @C75_equal,
   @C75_returned, @C76_accepts, @C76_check_partial, @C76_check_refuted).
Print Assumptions MtvIter_theorems.
