(** Properties of multi_type_vector (C37-C42, C45-C48, C50, C52, C53).

    The specification is in MtvSpec.v: a container shows a sequence of entries
    through size() and get(), and [reach anyop s] says that a program can build the
    container [s] with the public constructors and calls. *)
From Coq Require Import List ZArith Lia Bool Permutation.
From Verif Require Import Base MtvModel MtvModel2 MtvSpec MtvProofs MtvWrap MtvAppend MtvBridge MtvBridge2.
Import ListNotations.

Section T.
Set Default Proof Using "Type".
Context {V : Type}.
Variable cat : V -> nat.
Variable managed : nat -> bool.
Variable dup : V -> V.
Variable copyable : nat -> bool.
(** Copying a value keeps its type. *)
Hypothesis Hdup : forall v, cat (dup v) = cat v.
Notation st := (@st V).
Notation op := (@op V).
Notation reach := (@reach V cat managed dup copyable).

(** ** Helpers *)

Lemma step_calls (s s' : st) l a n x i t :
  reach anyop s -> shows s l -> a + n <= length l -> step0 cat managed s s' (splice a n x (flat s)) i t ->
  size s' = size s - n + length x /\
  (forall j, j < a -> get j s' = get j s) /\
  (forall j y, nth_error x j = Some y -> get (a + j) s' = Ok y) /\
  (forall j, get (a + length x + j) s' = get (a + n + j) s).
Proof using Hdup.
  intros Hr Hs Hn (G' & F' & _). pose proof (reach_good cat managed dup copyable Hdup _ _ Hr) as G.
  assert (a + n <= cs s) as Hn' by (destruct Hs as [H _]; unfold size in H; lia).
  pose proof (get_splice cat s s' a n x G G' F' Hn') as Hget.
  split; [now apply (size_splice cat s s' a n x)|]. split; [|split].
  - intros j Hj. rewrite Hget. apply Nat.ltb_lt in Hj. now rewrite Hj.
  - intros j y Hj. rewrite Hget.
    destruct (Nat.ltb_spec (a + j) a); [lia|].
    assert (j < length x) by (apply nth_error_Some; congruence).
    destruct (Nat.ltb_spec (a + j) (a + length x)); [|lia].
    replace (a + j - a) with j by lia. now rewrite Hj.
  - intros j. rewrite Hget.
    destruct (Nat.ltb_spec (a + length x + j) a); [lia|].
    destruct (Nat.ltb_spec (a + length x + j) (a + length x)); [lia|]. f_equal. lia.
Qed.

Lemma size_len (s : st) l : shows s l -> size s = length l.
Proof. intros [H _]. exact H. Qed.

Lemma drop_ok {A B} (m : res (A * B)) x : m = Ok x -> drop_it m = Ok (fst x).
Proof. now intros ->. Qed.

Ltac good_of H := pose proof (reach_good cat managed dup copyable Hdup _ _ H).

(** ** C37: set *)

Theorem C37_set : forall s l h pos v,
  reach anyop s -> shows s l -> hint_ok h l -> pos < size s ->
  exists s' i,
    set cat managed h pos v s = Ok (s', i) /\ reach anyop s' /\
    size s' = size s /\
    get pos s' = Ok (Some v) /\ get_type pos s' = Ok (Some (cat v)) /\
    (forall j, j <> pos -> get j s' = get j s /\ get_type j s' = get_type j s) /\
    in_block s' i pos.
Proof using Hdup.
  intros s l h pos v Hr Hs Hh Hp. good_of Hr.
  pose proof (size_len s l Hs) as Hl.
  destruct (wp_ok _ _ (set_spec cat managed s h pos v H Hp)) as ([s' i] & E & [St _] & At).
  exists s', i. cbn [fst snd] in *. split; [exact E|]. split.
  { eapply r_step with (o := OSet h pos v); eauto. exact I. cbn [exec]. now rewrite E. }
  destruct (step_calls s s' l pos 1 [Some v] _ _ Hr Hs ltac:(lia) St) as (H1 & H2 & H3 & H4).
  assert (good cat s') as G' by apply St.
  assert (get pos s' = Ok (Some v)) as Hv.
  { specialize (H3 0 (Some v) eq_refl). now rewrite Nat.add_0_r in H3. }
  assert (forall j, j <> pos -> get j s' = get j s) as Ho.
  { intros j Hj. destruct (Nat.lt_ge_cases j pos) as [L|L]; [auto|].
    specialize (H4 (j - pos - 1)). cbn [length] in H4. replace (pos + 1 + (j - pos - 1)) with j in H4 by lia.
    exact H4. }
  split; [rewrite H1; cbn [length]; lia|]. split; [exact Hv|]. split.
  { rewrite (get_type_eq cat s' pos G'), Hv. reflexivity. }
  split; [|now apply in_at].
  intros j Hj. split; [auto|]. now rewrite (get_type_eq cat s' j G'), (get_type_eq cat s j H), Ho.
Qed.

Theorem C37_out_of_range : forall s l h pos v,
  reach anyop s -> shows s l -> hint_ok h l -> size s <= pos ->
  set cat managed h pos v s = Throw E_out_of_range.
Proof using Hdup.
  intros s l h pos v Hr Hs Hh Hp. good_of Hr. pose proof (shows_eq cat s l H Hs) as ->.
  unfold set. rewrite (hint_out cat s h pos H Hh); [reflexivity|exact Hp].
Qed.

(** ** C38: range set *)

Theorem C38_set_range : forall s l h pos vs,
  reach anyop s -> shows s l -> one_type cat vs -> vs <> [] -> pos + length vs <= size s ->
  exists s' i,
    set_range cat managed h pos vs s = Ok (s', i) /\ reach anyop s' /\
    size s' = size s /\
    (forall j v, nth_error vs j = Some v -> get (pos + j) s' = Ok (Some v)) /\
    (forall j, j < pos \/ pos + length vs <= j -> get j s' = get j s) /\
    in_block s' i pos.
Proof using Hdup.
  intros s l h pos vs Hr Hs Ht Hne Hp. good_of Hr. destruct vs as [|v0 vs]; [congruence|].
  pose proof (size_len s l Hs) as Hl.
  assert (pos + length vs < cs s) as Hp' by (unfold size in Hp; cbn [length] in Hp; lia).
  destruct (wp_ok _ _ (set_range_spec cat managed s h pos v0 vs H Hp' (one_type_all cat v0 vs Ht)))
    as ([s' i] & E & St & At).
  exists s', i. cbn [fst snd] in *. split; [exact E|]. split.
  { eapply r_step with (o := OSetRange h pos (v0 :: vs)); eauto. exact I. cbn [exec]. now rewrite E. }
  destruct St as (Hg' & Hf' & _).
  pose proof (get_splice cat s s' pos (length (v0 :: vs)) (map Some (v0 :: vs)) H Hg' Hf' Hp) as Hget.
  rewrite map_length in Hget.
  split.
  { rewrite (size_splice cat s s' pos (length (v0 :: vs)) (map Some (v0 :: vs)) H Hg' Hf' Hp).
    rewrite map_length. unfold size in *. lia. }
  split; [|split; [|now apply in_at]].
  - intros j v Hj. assert (j < length (v0 :: vs)) by (apply nth_error_Some; congruence).
    rewrite Hget. destruct (Nat.ltb_spec (pos + j) pos); [lia|].
    destruct (Nat.ltb_spec (pos + j) (pos + length (v0 :: vs))); [|lia].
    replace (pos + j - pos) with j by lia. now rewrite (map_nth_error Some _ _ Hj).
  - intros j Hj. rewrite Hget. destruct (Nat.ltb_spec j pos); [reflexivity|].
    destruct (Nat.ltb_spec j (pos + length (v0 :: vs))); [lia|]. f_equal. lia.
Qed.

Theorem C38_empty_range : forall (s : st) h pos,
  exists i, set_range cat managed h pos [] s = Ok (s, i).
Proof. intros. eexists. reflexivity. Qed.

Theorem C38_out_of_range : forall s h pos vs,
  vs <> [] -> size s < pos + length vs ->
  set_range cat managed h pos vs s = Throw E_out_of_range.
Proof.
  intros s h pos [|v0 vs] Hne Hp; [congruence|]. unfold set_range, size in *. cbn [length] in *.
  destruct (Nat.leb_spec (cs s) (pos + S (length vs) - 1)); [reflexivity|lia].
Qed.

(** ** C39: insert and insert_empty *)

Theorem C39_insert : forall s l h pos vs,
  reach anyop s -> shows s l -> hint_ok h l -> one_type cat vs -> pos < size s ->
  exists s' i,
    insert cat h pos vs s = Ok (s', i) /\ reach anyop s' /\
    size s' = size s + length vs /\
    (forall j, j < pos -> get j s' = get j s) /\
    (forall j v, nth_error vs j = Some v -> get (pos + j) s' = Ok (Some v)) /\
    (forall j, get (pos + length vs + j) s' = get (pos + j) s) /\
    (vs <> [] -> in_block s' i pos).
Proof using Hdup.
  intros s l h pos vs Hr Hs Hh Ht Hp. good_of Hr.
  pose proof (size_len s l Hs) as Hl. destruct vs as [|v0 vs].
  - destruct (locate_in cat s h pos H Hp) as (q & b & t & E1 & E2 & E3).
    assert (exists i, insert cat h pos [] s = Ok (s, i)) as [i Ei].
    { unfold insert. rewrite E3. cbn [bind]. unfold insert_cells_impl, pos_at, bat.
      rewrite E1, nth_error_app_mid. eexists. reflexivity. }
    exists s, i. split; [exact Ei|]. split; [exact Hr|]. cbn [length].
    split; [lia|]. split; [auto|]. split.
    + intros [|j] v; discriminate.
    + split; [intros; f_equal; lia|congruence].
  - destruct (wp_ok _ _ (insert_spec cat managed s h pos v0 vs H Hp (one_type_all cat v0 vs Ht)))
      as ([s' i] & E & St & At & _).
    exists s', i. cbn [fst snd] in *. split; [exact E|]. split.
    { eapply r_step with (o := OInsert h pos (v0 :: vs)); eauto. split; auto. exact I. cbn [exec]. now rewrite E. }
    destruct (step_calls s s' l pos 0 _ _ _ Hr Hs ltac:(lia) St) as (H1 & H2 & H3 & H4).
    rewrite map_length in *. split; [lia|]. split; [exact H2|]. split.
    + intros j v Hj. apply H3. now apply map_nth_error.
    + split; [|intros _; now apply in_at]. intros j. rewrite H4. f_equal. lia.
Qed.

Theorem C39_insert_out_of_range : forall s l h pos vs,
  reach anyop s -> shows s l -> hint_ok h l -> size s <= pos ->
  insert cat h pos vs s = Throw E_out_of_range.
Proof using Hdup.
  intros s l h pos vs Hr Hs Hh Hp. good_of Hr. pose proof (shows_eq cat s l H Hs) as ->.
  unfold insert. rewrite (hint_out cat s h pos H Hh); [reflexivity|exact Hp].
Qed.

Theorem C39_insert_empty : forall s l h pos n,
  reach anyop s -> shows s l -> hint_ok h l -> pos < size s -> 0 < n ->
  exists s' i,
    insert_empty h pos n s = Ok (s', i) /\ reach anyop s' /\
    size s' = size s + n /\
    (forall j, j < pos -> get j s' = get j s) /\
    (forall j, j < n -> get (pos + j) s' = Ok None /\ is_empty (pos + j) s' = Ok true) /\
    (forall j, get (pos + n + j) s' = get (pos + j) s) /\
    in_block s' i pos.
Proof using Hdup.
  intros s l h pos n Hr Hs Hh Hp Hn. good_of Hr.
  pose proof (size_len s l Hs) as Hl.
  destruct (wp_ok _ _ (insert_empty_spec cat managed s h pos n H Hp Hn)) as ([s' i] & E & [St _] & At).
  exists s', i. cbn [fst snd] in *. split; [exact E|]. split.
  { eapply r_step with (o := OInsertEmpty h pos n); eauto. exact I. cbn [exec]. now rewrite E. }
  destruct (step_calls s s' l pos 0 _ _ _ Hr Hs ltac:(lia) St) as (H1 & H2 & H3 & H4).
  rewrite repeat_length in *. split; [lia|]. split; [exact H2|].
  assert (good cat s') as G' by apply St.
  split; [|split; [|now apply in_at]].
  - intros j Hj. assert (get (pos + j) s' = Ok None) as E1 by (apply H3, nth_error_repeat; lia).
    split; [exact E1|]. now rewrite (is_empty_eq cat s' _ G'), E1.
  - intros j. rewrite H4. f_equal. lia.
Qed.

Theorem C39_insert_empty_out_of_range : forall s l h pos n,
  reach anyop s -> shows s l -> hint_ok h l -> size s <= pos -> 0 < n ->
  insert_empty h pos n s = Throw E_out_of_range.
Proof using Hdup.
  intros s l h pos n Hr Hs Hh Hp Hn. good_of Hr. pose proof (shows_eq cat s l H Hs) as ->.
  pose proof (exec_spec cat managed (OInsertEmpty h pos n) s H Hh) as He. cbn [spec exec] in He.
  destruct (Nat.eqb_spec n 0); [lia|]. rewrite (len_flat cat s H) in He.
  destruct (Nat.ltb_spec pos (cs s)); [unfold size in Hp; lia|].
  unfold drop_it in He. destruct (insert_empty h pos n s); cbn in He; congruence.
Qed.

(** ** C40: erase *)

Theorem C40_erase : forall s l a b,
  reach anyop s -> shows s l -> a <= b -> b < size s ->
  exists s',
    erase managed a b s = Ok s' /\ reach anyop s' /\
    size s' = size s - (S b - a) /\
    (forall j, j < a -> get j s' = get j s) /\
    (forall j, get (a + j) s' = get (S b + j) s).
Proof using Hdup.
  intros s l a b Hr Hs Hab Hb. good_of Hr. pose proof (size_len s l Hs) as Hl.
  destruct (wp_ok _ _ (erase_spec cat managed s a b H Hab Hb)) as (s' & E & St).
  exists s'. split; [exact E|]. split.
  { eapply r_step with (o := OErase a b); eauto. exact I. exact I. }
  destruct St as [St _].
  destruct (step_calls s s' l a (S (b - a)) [] _ _ Hr Hs ltac:(lia) St) as (H1 & H2 & H3 & H4).
  cbn [length] in *. split; [lia|]. split; [exact H2|].
  intros j. specialize (H4 j). replace (a + 0 + j) with (a + j) in H4 by lia. rewrite H4. f_equal. lia.
Qed.

Theorem C40_out_of_range : forall s l a b,
  reach anyop s -> shows s l -> b < a \/ size s <= b ->
  erase managed a b s = Throw E_out_of_range.
Proof using Hdup.
  intros s l a b Hr Hs Hb. good_of Hr.
  pose proof (exec_spec cat managed (OErase a b) s H I) as He. cbn [spec exec] in He.
  rewrite (len_flat cat s H) in He. unfold size in Hb.
  destruct (Nat.leb_spec a b), (Nat.ltb_spec b (cs s)); cbn [andb] in He; auto; lia.
Qed.

(** ** C41: set_empty, and the release functions, which empty rows without freeing *)

Definition emptied (s s' : st) (a b i : nat) : Prop :=
  reach anyop s' /\ size s' = size s /\
  (forall j, a <= j <= b -> get j s' = Ok None /\ is_empty j s' = Ok true) /\
  (forall j, j < a \/ b < j -> get j s' = get j s) /\
  in_block s' i a.

Lemma emptied_calls s s' l a b i x y :
  reach anyop s -> shows s l -> a <= b -> b < size s -> reach anyop s' ->
  step0 cat managed s s' (splice a (S (b - a)) (repeat None (S (b - a))) (flat s)) x y ->
  at_pos s' i a -> emptied s s' a b i.
Proof using Hdup.
  intros Hr Hs Hab Hb Hr' St At. good_of Hr. good_of Hr'. pose proof (size_len s l Hs) as Hl.
  destruct (step_calls s s' l a (S (b - a)) _ _ _ Hr Hs ltac:(lia) St) as (H1 & H2 & H3 & H4).
  rewrite repeat_length in *. split; [exact Hr'|]. split; [unfold size in *; lia|].
  split; [|split; [|now apply in_at]].
  - intros j Hj. assert (get j s' = Ok None) as E1.
    { replace j with (a + (j - a)) by lia. apply H3, nth_error_repeat. lia. }
    split; [exact E1|]. now rewrite (is_empty_eq cat s' j H0), E1.
  - intros j [Hj|Hj]; [auto|]. specialize (H4 (j - S b)).
    replace (a + S (b - a) + (j - S b)) with j in H4 by lia. exact H4.
Qed.

Theorem C41_set_empty : forall s l h a b,
  reach anyop s -> shows s l -> hint_ok h l -> a <= b -> b < size s ->
  exists s' i, set_empty managed h a b s = Ok (s', i) /\ emptied s s' a b i.
Proof using Hdup.
  intros s l h a b Hr Hs Hh Hab Hb. good_of Hr.
  destruct (wp_ok _ _ (set_empty_spec cat managed s h a b H Hab Hb)) as ([s' i] & E & [St _] & At).
  exists s', i. split; [exact E|]. cbn [fst snd] in *. eapply emptied_calls; eauto.
  eapply r_step with (o := OSetEmpty h a b); eauto. exact I. cbn [exec]. now rewrite E.
Qed.

Theorem C41_release_range : forall s l h a b,
  reach anyop s -> shows s l -> hint_ok h l -> a <= b -> b < size s ->
  exists s' i, release_range managed h a b s = Ok (s', i) /\ emptied s s' a b i.
Proof using Hdup.
  intros s l h a b Hr Hs Hh Hab Hb. good_of Hr.
  destruct (wp_ok _ _ (release_range_spec cat managed s h a b H Hab Hb)) as ([s' i] & E & [St _] & At).
  exists s', i. split; [exact E|]. cbn [fst snd] in *. eapply emptied_calls; eauto.
  eapply r_step with (o := OReleaseRange h a b); eauto. exact I. cbn [exec]. now rewrite E.
Qed.

(** release(pos) also returns what the row held. *)
Theorem C41_release : forall s l h pos,
  reach anyop s -> shows s l -> hint_ok h l -> pos < size s ->
  exists s' i x, release managed h pos s = Ok (s', i, x) /\ get pos s = Ok x /\ emptied s s' pos pos i.
Proof using Hdup.
  intros s l h pos Hr Hs Hh Hp. good_of Hr.
  destruct (wp_ok _ _ (release_spec cat managed s h pos H Hp)) as ([[s' i] x] & E & Ex & [St _] & At).
  exists s', i, x. split; [exact E|]. cbn [fst snd] in *. split.
  { now rewrite (get_eq cat s pos H), Ex. }
  eapply emptied_calls; eauto.
  - eapply r_step with (o := ORelease h pos); eauto. exact I. cbn [exec]. now rewrite E.
  - rewrite Nat.sub_diag. exact St.
Qed.

Theorem C41_out_of_range : forall s l h a b,
  reach anyop s -> shows s l -> hint_ok h l -> b < a \/ size s <= b ->
  set_empty managed h a b s = Throw E_out_of_range /\
  release_range managed h a b s = Throw E_out_of_range /\
  (size s <= a -> release managed h a s = Throw E_out_of_range).
Proof using Hdup.
  intros s l h a b Hr Hs Hh Hb. good_of Hr. pose proof (shows_eq cat s l H Hs) as ->.
  pose proof (exec_spec cat managed (OSetEmpty h a b) s H Hh) as H1.
  pose proof (exec_spec cat managed (OReleaseRange h a b) s H Hh) as H2.
  pose proof (exec_spec cat managed (ORelease h a) s H Hh) as H3.
  cbn [spec exec] in *. rewrite (len_flat cat s H) in *. unfold size in Hb.
  assert ((a <=? b) && (b <? cs s) = false) as E.
  { destruct (Nat.leb_spec a b), (Nat.ltb_spec b (cs s)); auto; lia. }
  rewrite E in *. unfold drop_it in *.
  split; [destruct (set_empty managed h a b s); cbn in H1; congruence|].
  split; [destruct (release_range managed h a b s); cbn in H2; congruence|].
  intros Ha. destruct (Nat.ltb_spec a (cs s)); [unfold size in Ha; lia|].
  destruct (release managed h a s); cbn in H3; congruence.
Qed.

(** release() and clear() leave an empty container. *)
Theorem C41_release_all : forall s l,
  reach anyop s -> shows s l ->
  size (release_all s) = 0 /\ reach anyop (release_all s) /\
  exists s', clear managed s = Ok s' /\ size s' = 0 /\ reach anyop s'.
Proof using Hdup.
  intros s l Hr Hs. good_of Hr. split; [reflexivity|]. split.
  { eapply r_step with (o := OReleaseAll); eauto. exact I. exact I. }
  destruct (wp_ok _ _ (clear_spec cat managed s H)) as (s' & E & [St _]).
  exists s'. split; [exact E|]. split.
  - destruct St as (G & F & _). unfold size. rewrite <- (len_flat cat s' G), F. reflexivity.
  - eapply r_step with (o := OClear); eauto. exact I. exact I.
Qed.

(** ** C42: resize, push_back, push_back_empty *)

(** Missing for the full statement: a shrinking resize whose new last row holds a
    managed element (see C42_resize_refuted). *)
Theorem C42_resize_partial : forall s l n,
  reach anyop s -> shows s l -> cut_ok cat managed n l ->
  exists s',
    resize managed n s = Ok s' /\ reach anyop s' /\ size s' = n /\
    (forall j, j < n -> j < size s -> get j s' = get j s) /\
    (forall j, size s <= j < n -> get j s' = Ok None /\ is_empty j s' = Ok true).
Proof using Hdup.
  intros s l n Hr Hs Hc. good_of Hr.
  pose proof (refines cat managed dup copyable Hdup _ s l (OResize n) Hr Hs Hc I) as HR.
  cbn [spec exec] in HR. destruct HR as (s' & E & Hr' & Hs'). exists s'. split; [exact E|].
  split; [exact Hr'|]. good_of Hr'. pose proof (size_len s l Hs) as Hl.
  pose proof (size_len _ _ Hs') as Hl'. rewrite app_length, firstn_length, repeat_length in Hl'.
  split; [lia|].
  pose proof (shows_eq cat s l H Hs) as El. pose proof (shows_eq cat s' _ H0 Hs') as El'.
  split.
  - intros j H1 H2. rewrite (get_eq cat s' j H0), (get_eq cat s j H), <- El', <- El.
    rewrite nth_error_app1 by (rewrite firstn_length; lia).
    replace (nth_error (firstn n l) j) with (nth_error l j); [reflexivity|].
    clear - H1. revert n j H1; induction l as [|x l IH]; intros n j H1.
    + rewrite firstn_nil. reflexivity.
    + destruct n; [lia|]. destruct j; cbn; [reflexivity|]. apply IH. lia.
  - intros j Hj. assert (get j s' = Ok None) as E1.
    { rewrite (get_eq cat s' j H0), <- El'. rewrite nth_error_app2 by (rewrite firstn_length; lia).
      rewrite nth_error_repeat; [reflexivity|]. rewrite firstn_length. lia. }
    split; [exact E1|]. now rewrite (is_empty_eq cat s' j H0), E1.
Qed.

Lemma push_common s l s' (x : option V) (o : op) :
  reach anyop s -> shows s l -> spec o l = Some (l ++ [x]) -> legal cat managed o l ->
  exec cat managed o s = Ok s' ->
  reach anyop s' /\ size s' = S (size s) /\ get (size s) s' = Ok x /\
  (forall j, j < size s -> get j s' = get j s).
Proof using Hdup.
  intros Hr Hs Hsp Hl E. good_of Hr.
  pose proof (refines cat managed dup copyable Hdup _ s l o Hr Hs Hl I) as HR.
  rewrite Hsp in HR. destruct HR as (s1 & E1 & Hr' & Hs'). rewrite E in E1. injection E1 as <-.
  pose proof (size_len s l Hs) as L. pose proof (size_len _ _ Hs') as L'.
  rewrite app_length in L'. cbn [length] in L'. split; [exact Hr'|]. split; [lia|].
  destruct Hs' as [_ Hs'], Hs as [_ Hs0]. split.
  - apply Hs'. rewrite L. rewrite nth_error_app2, Nat.sub_diag by lia. reflexivity.
  - intros j Hj. rewrite L in Hj. destruct (nth_error l j) as [y|] eqn:Ey.
    + rewrite (Hs' j y), (Hs0 j y); auto. rewrite nth_error_app1; auto.
    + apply nth_error_None in Ey. lia.
Qed.

Theorem C42_push_back : forall s l v,
  reach anyop s -> shows s l ->
  exists s' i,
    push_back cat managed v s = Ok (s', i) /\ reach anyop s' /\
    size s' = S (size s) /\ get (size s) s' = Ok (Some v) /\
    get_type (size s) s' = Ok (Some (cat v)) /\
    (forall j, j < size s -> get j s' = get j s) /\ in_block s' i (size s).
Proof using Hdup.
  intros s l v Hr Hs. good_of Hr.
  destruct (wp_ok _ _ (push_back_spec cat managed s v H)) as ([s' i] & E & _ & At).
  destruct (push_common s l s' (Some v) (OPush v) Hr Hs eq_refl I (drop_ok _ _ E)) as (H1 & H2 & H3 & H4).
  exists s', i. good_of H1. do 4 (split; [assumption|]).
  split; [now rewrite (get_type_eq cat s' _ H0), H3|]. split; [assumption|]. now apply in_at.
Qed.

Theorem C42_push_back_empty : forall s l,
  reach anyop s -> shows s l ->
  exists s' i,
    push_back_empty s = Ok (s', i) /\ reach anyop s' /\
    size s' = S (size s) /\ get (size s) s' = Ok None /\ is_empty (size s) s' = Ok true /\
    (forall j, j < size s -> get j s' = get j s) /\ in_block s' i (size s).
Proof using Hdup.
  intros s l Hr Hs. good_of Hr.
  destruct (wp_ok _ _ (push_back_empty_spec cat managed s H)) as ([s' i] & E & _ & At).
  destruct (push_common s l s' None OPushEmpty Hr Hs eq_refl I (drop_ok _ _ E)) as (H1 & H2 & H3 & H4).
  exists s', i. good_of H1. do 4 (split; [assumption|]).
  split; [now rewrite (is_empty_eq cat s' _ H0), H3|]. split; [assumption|]. now apply in_at.
Qed.

(** ** Any sequence of calls behaves like the sequence of entries *)

Theorem C37_C42_histories : forall os s l,
  reach anyop s -> shows s l -> legal_all cat managed os l ->
  exists s', run cat managed os s = Ok s' /\ reach anyop s' /\ shows s' (run_spec os l).
Proof using Hdup. exact (run_refines cat managed dup copyable Hdup). Qed.

(** Reading: every row below size() has an entry, every other row throws. *)
Theorem C37_get_total : forall s,
  reach anyop s ->
  (exists l, shows s l) /\
  (forall i, size s <= i -> get i s = Throw E_out_of_range /\ get_type i s = Throw E_out_of_range).
Proof using Hdup.
  intros s Hr. good_of Hr. split; [exists (flat s); now apply (shows_flat cat)|].
  intros i Hi. assert (get i s = Throw E_out_of_range) as E.
  { rewrite (get_eq cat s i H). unfold size in Hi. rewrite <- (len_flat cat s H) in Hi.
    apply nth_error_None in Hi. now rewrite Hi. }
  split; [exact E|]. now rewrite (get_type_eq cat s i H), E.
Qed.

(** ** C45: the blocks *)

(** The blocks tile the rows, none is of size zero, every row of a block has the
    type of the block, and two empty blocks never meet. *)
Theorem C45_blocks : forall s,
  reach anyop s ->
  (forall i c p n, block s i = Some (c, p, n) ->
     0 < n /\ p + n <= size s /\
     (forall j, p <= j < p + n -> get_type j s = Ok c) /\
     (i = 0 -> p = 0) /\
     (block s (S i) = None -> p + n = size s) /\
     (forall c' p' n', block s (S i) = Some (c', p', n') -> p' = p + n /\ (c = None -> c' <> None))) /\
  (size s = 0 <-> block s 0 = None).
Proof using Hdup.
  intros s Hr. good_of Hr. pose proof H as (Hw & Hc & He). split.
  - intros i c p n Hb. unfold block in Hb.
    destruct (nth_error (bl s) i) as [b|] eqn:E; [|discriminate]. injection Hb as <- <- <-.
    apply nth_error_split in E as (q & t & E & <-). unfold size. rewrite Hc.
    rewrite E, tot_app in *. cbn [tot] in *.
    pose proof (wfl_bp _ _ _ _ _ Hw) as Hbp.
    pose proof Hw as Hw'. apply wfl_app in Hw' as [Hq Hw'].
    cbn [wfl] in Hw'. destruct Hw' as (_ & Hok & Ht). destruct Hok as [Hz Hok].
    rewrite Hbp. cbn [Nat.add] in *.
    split; [exact Hz|]. split; [lia|]. split; [|split; [|split]].
    + intros j Hj. rewrite (get_type_eq cat s j H), (get_eq cat s j H).
      pose proof (type_at_block cat s q b t j H E Hj) as T. unfold type_at in T.
      destruct (nth_error (flat s) j) as [x|] eqn:Ex.
      * cbn [bind]. f_equal. unfold bcat in T. rewrite <- T. now destruct x.
      * apply nth_error_None in Ex. rewrite (len_flat cat s H) in Ex.
        destruct H as (_ & Hc' & _). rewrite Hc', E, tot_app in Ex. cbn [tot] in Ex. lia.
    + intros Hi. destruct q; [reflexivity|discriminate].
    + unfold block. rewrite E. intros Hn.
      replace (S (length q)) with (length (q ++ [b])) in Hn by (rewrite app_length; cbn; lia).
      replace (q ++ b :: t) with ((q ++ [b]) ++ t) in Hn by (rewrite <- app_assoc; reflexivity).
      destruct t as [|b' t]; [cbn [tot]; lia|]. rewrite nth_error_app_mid in Hn. discriminate.
    + intros c' p' n'. unfold block. rewrite E. intros Hn.
      replace (S (length q)) with (length (q ++ [b])) in Hn by (rewrite app_length; cbn; lia).
      replace (q ++ b :: t) with ((q ++ [b]) ++ t) in Hn by (rewrite <- app_assoc; reflexivity).
      destruct t as [|b' t]; [rewrite app_nil_r in Hn|].
      { rewrite (proj2 (nth_error_None _ _)) in Hn by lia. discriminate. }
      rewrite nth_error_app_mid in Hn. injection Hn as <- <- <-.
      split.
      * cbn [wfl] in Ht. destruct Ht as (Ht & _). exact Ht.
      * rewrite map_app in He. apply chain_post in He. cbn [map chain] in He. destruct He as [He _].
        unfold Ree, bcat in He. exact He.
  - unfold size, block. rewrite Hc. destruct (bl s) as [|b l]; cbn [nth_error tot]; [tauto|].
    cbn [wfl] in Hw. destruct Hw as (_ & [Hz _] & _). split; [lia|discriminate].
Qed.

(** Missing for the full statement: histories with a range set as in finding M4
    (see C45_neighbours_differ_refuted). *)
Theorem C45_neighbours_differ_partial : forall s,
  reach (fun l o => ~ unmerged cat l o) s ->
  forall i c p n c' p' n',
    block s i = Some (c, p, n) -> block s (S i) = Some (c', p', n') -> c <> c'.
Proof using Hdup.
  intros s Hr i c p n c' p' n'. pose proof (reach_canon cat managed dup copyable Hdup _ s (fun l o H => H) Hr) as Hc.
  unfold canon in Hc. unfold block.
  destruct (nth_error (bl s) i) as [b|] eqn:E1; [|discriminate].
  destruct (nth_error (bl s) (S i)) as [b'|] eqn:E2; [|discriminate].
  intros [= <- <- <-] [= <- <- <-].
  apply nth_error_split in E1 as (q & t & E & <-). rewrite E in *.
  replace (S (length q)) with (length (q ++ [b])) in E2 by (rewrite app_length; cbn; lia).
  replace (q ++ b :: t) with ((q ++ [b]) ++ t) in E2 by (rewrite <- app_assoc; reflexivity).
  destruct t as [|b2 t]; [rewrite app_nil_r in E2; rewrite (proj2 (nth_error_None _ _)) in E2 by lia; discriminate|].
  rewrite nth_error_app_mid in E2. injection E2 as <-.
  rewrite map_app in Hc. apply chain_post in Hc. cbn [map chain] in Hc. destruct Hc as [Hc _]. exact Hc.
Qed.

(** ** C46: operator== *)

(** Missing for the full statement: histories with a range set as in finding M4
    (see C46_equal_content_refuted). *)
Theorem C46_equal_content_partial : forall (veq : V -> V -> bool),
  (forall x y, veq x y = true <-> x = y) ->
  forall a b la lb,
  reach (fun l o => ~ unmerged cat l o) a -> reach (fun l o => ~ unmerged cat l o) b ->
  shows a la -> shows b lb ->
  (eq_mtv veq a b = true <-> la = lb).
Proof using Hdup.
  intros veq Hveq a b la lb Ha Hb Sa Sb. good_of Ha. good_of Hb.
  rewrite (shows_eq cat a la H Sa), (shows_eq cat b lb H0 Sb).
  apply (eq_mtv_spec cat); auto.
  - apply (reach_canon cat managed dup copyable Hdup _ a (fun l o H => H) Ha).
  - apply (reach_canon cat managed dup copyable Hdup _ b (fun l o H => H) Hb).
Qed.

(** The direction that always holds. *)
Theorem C46_equal_sound : forall (veq : V -> V -> bool),
  (forall x y, veq x y = true <-> x = y) ->
  forall a b la lb,
  reach anyop a -> reach anyop b -> shows a la -> shows b lb -> eq_mtv veq a b = true -> la = lb.
Proof using Hdup.
  intros veq Hveq a b la lb Ha Hb Sa Sb He. good_of Ha. good_of Hb.
  rewrite (shows_eq cat a la H Sa), (shows_eq cat b lb H0 Sb). now apply (eq_mtv_sound veq).
Qed.

(** A copy shows the copied values, and compares equal to its source when copying
    keeps values equal. *)
Theorem C46_copy : forall A g s l,
  reach A s -> shows s l ->
  (forall x v, In x l -> x = Some v -> copyable (cat v) = true) ->
  exists s', copy_of dup copyable g s = Ok s' /\ reach A s' /\ shows s' (map (option_map dup) l) /\
    (forall veq : V -> V -> bool, (forall x, veq x (dup x) = true) -> eq_mtv veq s s' = true).
Proof using Hdup.
  intros A g s l Hr Hs Hcp. good_of Hr. pose proof (shows_eq cat s l H Hs) as El.
  assert (exists t, copy_bl dup copyable g 0 (bl s) = Ok t /\
     (forall veq : V -> V -> bool, (forall x, veq x (dup x) = true) ->
        nats_eqb (map bp (bl s)) (map bp t) = true /\ nats_eqb (map bs (bl s)) (map bs t) = true /\
        (length (bl s) =? length t) = true /\ datas_eqb veq (map bd (bl s)) (map bd t) = true)) as (t & Et & Hq).
  { destruct H as (Hw & _). assert (forall x v, In x (flatl (bl s)) -> x = Some v -> copyable (cat v) = true) as Hcp'.
    { intros x v Hx. apply Hcp. rewrite El. exact Hx. }
    clear Hcp El Hs Hr. revert Hw Hcp'. generalize (bl s).
    set (k := 0) at 2. set (p := 0). clearbody k p. intros l0. revert p k.
    induction l0 as [|b t IH]; intros p k Hw Hcp'.
    - exists []. split; [reflexivity|]. intros; repeat split.
    - cbn [wfl] in Hw. destruct Hw as (_ & [Hz Hok] & Hw).
      destruct (IH _ (S k) Hw) as (t' & Et & Hq).
      { intros x v Hx. apply Hcp'. rewrite flatl_cons. apply in_or_app. auto. }
      cbn [copy_bl]. destruct (bd b) as [e|] eqn:Eb.
      + destruct Hok as [Hl Ha].
        assert (copyable (ecat e) = true) as Hce.
        { destruct (ev e) as [|v0 vs] eqn:Ev; [simpl in Hl; lia|].
          cbn in Ha. apply andb_prop in Ha as [Ha _]. apply Nat.eqb_eq in Ha. rewrite <- Ha.
          apply (Hcp' (Some v0) v0); [|reflexivity]. rewrite flatl_cons. apply in_or_app. left.
          unfold flatb. rewrite Eb, Ev. left. reflexivity. }
        unfold copy_data. rewrite Hce. cbn [bind]. rewrite Et. cbn [bind].
        eexists. split; [reflexivity|]. intros veq Hv. destruct (Hq veq Hv) as (Q1 & Q2 & Q3 & Q4).
        cbn [map nats_eqb datas_eqb length bp bs bd]. rewrite !Nat.eqb_refl, Q1, Q2, Q4. rewrite Eb.
        cbn [data_eqb ecat ev]. rewrite Nat.eqb_refl. repeat split; auto. cbn [andb].
        rewrite andb_true_r.
        clear - Hv. induction (ev e) as [|x l IH]; cbn; [reflexivity|]. now rewrite Hv, IH.
      + cbn [bind]. rewrite Et. cbn [bind]. eexists. split; [reflexivity|].
        intros veq Hv. destruct (Hq veq Hv) as (Q1 & Q2 & Q3 & Q4).
        cbn [map nats_eqb datas_eqb length bp bs bd]. rewrite !Nat.eqb_refl, Q1, Q2, Q4. rewrite Eb.
        repeat split; auto. }
  assert (copy_of dup copyable g s = Ok (ST t (cs s) (length t) g (held t) [] [])) as Ec
    by (unfold copy_of; rewrite Et; reflexivity).
  eexists. split; [exact Ec|]. split; [eapply r_copy; eauto|].
  destruct (copy_spec cat dup copyable Hdup g s _ H Ec) as (G' & _ & F').
  split.
  { rewrite El. change (map (option_map dup) (flat s)) with (map (odup dup) (flat s)).
    rewrite <- F'. now apply (shows_flat cat). }
  intros veq Hv. destruct (Hq veq Hv) as (Q1 & Q2 & Q3 & Q4).
  unfold eq_mtv. cbn [cs bl]. now rewrite Nat.eqb_refl, Q1, Q2, Q3, Q4.
Qed.

(** ** C47: hints *)

(** Missing for the full statement: hints on a container of size zero (see
    C47_hint_refuted). *)
Theorem C47_hint_partial : forall s h pos a b n v vs,
  reach anyop s -> 0 < size s ->
  position (Some h) pos s = position None pos s /\
  set cat managed (Some h) pos v s = set cat managed None pos v s /\
  set_range cat managed (Some h) pos vs s = set_range cat managed None pos vs s /\
  set_empty managed (Some h) a b s = set_empty managed None a b s /\
  insert cat (Some h) pos vs s = insert cat None pos vs s /\
  insert_empty (Some h) pos n s = insert_empty None pos n s /\
  release managed (Some h) pos s = release managed None pos s /\
  release_range managed (Some h) a b s = release_range managed None a b s.
Proof using Hdup.
  intros s h pos a b n v vs Hr H0. good_of Hr.
  pose proof (locate_hint_any cat s h pos H H0) as E. pose proof (locate_hint_any cat s h a H H0) as Ea.
  unfold position, set, set_empty, insert, insert_empty, release, release_range.
  rewrite E, Ea. repeat split. now apply (set_range_hint cat managed).
Qed.

(** Out-of-range positions with a hint throw. *)
Theorem C47_out_of_range : forall s h pos,
  reach anyop s -> 0 < size s -> size s < pos ->
  position h pos s = Throw E_out_of_range.
Proof using Hdup.
  intros s h pos Hr H0 Hp. good_of Hr. unfold position, size in *.
  destruct (Nat.eqb_spec pos (cs s)); [lia|].
  rewrite (locate_out cat s h pos H); [reflexivity| |lia].
  right. now apply (nblk_pos cat).
Qed.

(** ** C48: position objects *)

Theorem C48_position : forall s h row,
  reach anyop s -> row < size s ->
  exists i k, position h row s = Ok (i, k) /\ in_block s i row /\
    logical_position (i, k) s = Ok row /\
    (forall v, get row s = Ok (Some v) -> get_at (i, k) s = Ok v).
Proof using Hdup.
  intros s h row Hr Hp. good_of Hr.
  destruct (position_at cat s h row H Hp) as (q & b & t & E1 & E2 & E3 & E4).
  destruct (logical_spec cat s h _ _ row H Hp E4) as [L1 L2].
  eexists. eexists. split; [exact E4|]. split; [exact L2|]. split; [exact L1|].
  intros v Hv. eapply (get_at_spec cat); eauto.
Qed.

Theorem C48_next_position : forall s h row i k,
  reach anyop s -> row < size s -> position h row s = Ok (i, k) ->
  next_position (i, k) s = position None (S row) s.
Proof using Hdup. intros s h row i k Hr Hp Hk. good_of Hr. eapply (next_position_spec cat); eauto. Qed.

Theorem C48_advance_position : forall s h row i k d,
  reach anyop s -> row <= size s -> position h row s = Ok (i, k) ->
  (0 <= Z.of_nat row + d <= Z.of_nat (size s))%Z ->
  advance_position (i, k) d s = position None (Z.to_nat (Z.of_nat row + d)) s.
Proof using Hdup. intros s h row i k d Hr Hp Hk Hd. good_of Hr. eapply (advance_spec cat); eauto. Qed.

(** ** C50: ownership of managed elements *)

(** The objects handed to the container are: freed by it, still stored, or handed
    back; nothing is freed twice or lost.  Missing for the full statement: resize as
    in finding M2 ([legal_all] contains [cut_ok]) and range set as in finding M3. *)
Theorem C50_owned_once_partial : forall (eq_dec : forall x y : V, {x = y} + {x <> y}) g n os,
  legal_all cat managed os (repeat None n) -> none_bad (leaky cat managed) os (repeat None n) ->
  exists s l, run cat managed os (mk_size g n) = Ok s /\ shows s l /\
    Permutation (given_all cat managed os (repeat None n))
                (freed s ++ objects cat managed l ++ taken_all cat managed os (repeat None n)).
Proof using Hdup.
  intros eq_dec g n os H1 H2.
  assert (good cat (mk_size g n : st)) as Hg by apply good_init.
  assert (flat (mk_size g n : st) = repeat None n) as Hf.
  { unfold mk_size, flat. destruct (Nat.eqb_spec n 0) as [->|]; [reflexivity|].
    cbn [bl]. rewrite flatl_cons. cbn. now rewrite app_nil_r. }
  rewrite <- Hf in H1, H2.
  destruct (run_owner cat managed os _ Hg H1 H2) as (s & E & G & F & O).
  exists s, (flat s). split; [exact E|]. split; [now apply (shows_flat cat)|].
  rewrite Hf in O.
  apply (Permutation_count_occ eq_dec). intros v.
  assert (forall l : list V, count_occ eq_dec l v = cnt (fun x => if eq_dec x v then true else false) l) as Hc.
  { induction l as [|x l IH]; cbn; [reflexivity|]. destruct (eq_dec x v); cbn; lia. }
  rewrite Hc, Hc, !cnt_app. rewrite (O (fun x => if eq_dec x v then true else false)) || idtac.
  specialize (O (fun x => if eq_dec x v then true else false)).
  assert (objects cat managed (repeat None n) = []) as E0 by (clear; induction n; auto).
  assert (freed (mk_size g n : st) = []) as E1 by (unfold mk_size; now destruct (n =? 0)).
  rewrite E0, E1 in O. cbn [cnt] in O. lia.
Qed.

(** Destroying or clearing the container frees what is still stored. *)
Theorem C50_destroy : forall s l,
  reach anyop s -> shows s l ->
  exists s', clear managed s = Ok s' /\
    forall p, count p (freed s') = count p (freed s) + count p (objects cat managed l).
Proof using Hdup.
  intros s l Hr Hs. good_of Hr. pose proof (shows_eq cat s l H Hs) as ->.
  destruct (wp_ok _ _ (clear_spec cat managed s H)) as (s' & E & [(G & F & _ & _ & O) _]).
  exists s'. split; [exact E|]. intros p. specialize (O p). rewrite <- !cnt_count.
  rewrite (objects_flat cat managed s H).
  rewrite <- (objects_flat cat managed s' G), F in O. cbn [cnt objects flat_map] in O. lia.
Qed.

(** ** C52: block events *)

(** Missing for the full statement: histories with a range set over the first rows of
    a stretch of another type (finding M8), a range set as in finding M4 or an insert
    in front of a block of another type (finding M1). *)
Theorem C52_events_partial : forall g n os,
  legal_all cat managed os (repeat None n) -> none_bad (event_exempt cat) os (repeat None n) ->
  exists s, run cat managed os (mk_size g n) = Ok s /\
    forall p, count p (acq s) = count p (rel s) + count p (blocks_held s).
Proof using Hdup.
  intros g n os H1 H2.
  assert (good cat (mk_size g n : st)) as Hg by apply good_init.
  assert (flat (mk_size g n : st) = repeat None n) as Hf.
  { unfold mk_size, flat. destruct (Nat.eqb_spec n 0) as [->|]; [reflexivity|].
    cbn [bl]. rewrite flatl_cons. cbn. now rewrite app_nil_r. }
  rewrite <- Hf in H1, H2.
  destruct (run_events cat managed os _ Hg (canon_init g n) H1 H2) as (s & E & _ & _ & O).
  exists s. split; [exact E|]. intros p. specialize (O p). rewrite <- !cnt_count.
  assert (acq (mk_size g n : st) = [] /\ rel (mk_size g n : st) = [] /\ refs (bl (mk_size g n : st)) = []) as (E1 & E2 & E3).
  { unfold mk_size. destruct (n =? 0); auto. }
  rewrite E1, E2, E3 in O. cbn [cnt] in O. unfold blocks_held, held.
  change (flat_map _ (bl s)) with (refs (bl s)). lia.
Qed.

(** ** C53: move *)

(** The target shows what the source showed; the source reports a size without rows
    (C53_moved_from_refuted) but clear() makes it an empty container. *)
Theorem C53_moved_partial : forall s l,
  reach anyop s -> shows s l ->
  shows (fst (move_of s)) l /\
  exists s', clear managed (snd (move_of s)) = Ok s' /\ shows s' [] /\
    (forall o, legal cat managed o [] ->
       match spec o [] with
       | Some l' => exists s'', exec cat managed o s' = Ok s'' /\ shows s'' l'
       | None => exec cat managed o s' = Throw E_out_of_range
       end).
Proof using Hdup.
  intros s l Hr Hs. split; [exact Hs|]. cbn [move_of snd].
  eexists. split; [reflexivity|]. split.
  { split; [reflexivity|]. intros [|i] x; discriminate. }
  intros o Ho. cbn [with_cs with_bl bl cs].
  match goal with |- context [exec cat managed o ?x] => set (s1 := x) end.
  assert (good cat s1) as G by (repeat split).
  assert (flat s1 = []) as F by reflexivity.
  pose proof (exec_spec cat managed o s1 G) as He. rewrite F in He. specialize (He Ho).
  destruct (spec o []) as [l'|]; [|exact He].
  apply wp_ok in He as (s'' & E & G' & <- & _). exists s''. split; [exact E|]. now apply (shows_flat cat).
Qed.

(** Swap and assignment exchange the whole containers. *)
Theorem C53_assign : forall g A s other l,
  reach A s -> reach A other -> shows other l ->
  (forall x v, In x l -> x = Some v -> copyable (cat v) = true) ->
  exists s' old, assign dup copyable g s other = Ok (s', old) /\ old = s /\
    shows s' (map (option_map dup) l).
Proof using Hdup.
  intros g A s other l Hs Ho Hl Hc. destruct (C46_copy A g other l Ho Hl Hc) as (s' & E & _ & S' & _).
  exists s', s. unfold assign. rewrite E. auto.
Qed.
End T.

(** ** Concrete cases *)

(** Values with a type number; types 5 and above are managed pointers. *)
Definition xv := (nat * nat)%type.
Definition xcat (v : xv) : nat := fst v.
Definition xman (c : nat) : bool := 5 <=? c.
Definition xdup (v : xv) : xv := if xman (fst v) then (fst v, S (snd v)) else v.
Definition xcopy (c : nat) : bool := negb (c =? 6).
Definition xeq (a b : xv) : bool := (fst a =? fst b) && (snd a =? snd b).
Lemma xdup_cat v : xcat (xdup v) = xcat v.
Proof. unfold xdup, xcat. now destruct (xman (fst v)). Qed.
Lemma xeq_ok a b : xeq a b = true <-> a = b.
Proof.
  destruct a, b. unfold xeq. cbn. rewrite andb_true_iff, !Nat.eqb_eq.
  split; [intros [-> ->]; reflexivity|intros [= -> ->]; auto].
Qed.
Definition xeq_dec (a b : xv) : {a = b} + {a <> b}.
Proof. destruct (xeq a b) eqn:E; [left|right]; [now apply xeq_ok|]. intros H. apply xeq_ok in H. congruence. Defined.

Notation xreach := (@reach xv xcat xman xdup xcopy).
Notation xst := (@MtvModel.st xv).

(** Containers built by running calls are reachable. *)
Lemma size_shows g n : shows (mk_size g n : xst) (repeat None n).
Proof.
  split.
  - unfold size, mk_size. rewrite repeat_length. destruct (Nat.eqb_spec n 0); subst; reflexivity.
  - intros i x Hi. assert (good xcat (mk_size g n : xst)) as Hg by apply good_init.
    rewrite (get_eq xcat _ i Hg). unfold mk_size, flat. destruct (Nat.eqb_spec n 0) as [->|]; [now destruct i|].
    cbn [bl]. rewrite flatl_cons. unfold flatb. cbn [bd bs].
    change (flatl (@nil (@blk xv))) with (@nil (option xv)). rewrite app_nil_r, Hi. reflexivity.
Qed.
Lemma run_reach os g n (s : xst) :
  legal_all xcat xman os (repeat None n) -> run xcat xman os (mk_size g n) = Ok s ->
  xreach anyop s /\ shows s (run_spec os (repeat None n)).
Proof.
  intros Hl E.
  destruct (run_refines xcat xman xdup xcopy xdup_cat os (mk_size g n) (repeat None n)
              (r_size _ _ _ _ _ g n) (size_shows g n) Hl) as (s' & E' & R & S').
  rewrite E in E'. injection E' as <-. auto.
Qed.

Ltac xone :=
  cbn [legal];
  repeat match goal with
  | |- _ /\ _ => split
  | |- True => exact I
  | |- hint_ok None _ => left; reflexivity
  | |- hint_ok _ _ => right; discriminate
  | |- one_type _ _ => let x := fresh in let y := fresh in let H1 := fresh in let H2 := fresh in
      intros x y H1 H2; cbn in H1, H2; intuition (subst; reflexivity)
  | |- cut_ok _ _ _ _ => let v := fresh in let H1 := fresh in let H2 := fresh in
      intros v H1 H2; cbn in H1, H2; first [lia | discriminate | injection H2 as <-; reflexivity]
  end.
Lemma legal_cons o (os : list (@op xv)) l l' :
  legal xcat xman o l -> match spec o l with Some l' => l' | None => l end = l' ->
  legal_all xcat xman os l' -> legal_all xcat xman (o :: os) l.
Proof. intros H1 <- H2. split; auto. Qed.
Lemma none_cons bad o (os : list (@op xv)) l l' :
  ~ bad l o -> match spec o l with Some l' => l' | None => l end = l' ->
  none_bad bad os l' -> none_bad bad (o :: os) l.
Proof. intros H1 <- H2. split; auto. Qed.
Ltac xlegal := repeat (eapply legal_cons; [xone|vm_compute; reflexivity|]); exact I.

(** A history over several types, hints and all kinds of calls. *)
Definition os1 : list (@op xv) :=
  [OSetRange None 1 [(1, 10); (1, 11); (1, 12)]; OSet (Some (Some 0)) 5 (2, 20);
   OInsert (Some None) 2 [(5, 50); (5, 51)]; OInsertEmpty None 0 2; OSetEmpty (Some (Some 1)) 6 7;
   OErase 0 1; ORelease None 2; OReleaseRange None 3 3; OPush (2, 21); OPushEmpty;
   OResize 12; OResize 7; OSet None 99 (1, 1)].
Lemma os1_legal : legal_all xcat xman os1 (repeat None 8).
Proof. unfold os1. xlegal. Qed.
Definition s1 : xst := match run xcat xman os1 (mk_size 0 8) with Ok s => s | _ => mk_empty 0 end.
Definition l1 : list (option xv) := [None; Some (1, 10); None; None; None; None; None].
Example os1_runs : run xcat xman os1 (mk_size 0 8) = Ok s1 /\ run_spec os1 (repeat None 8) = l1.
Proof. split; vm_compute; reflexivity. Qed.
Example s1_reach : xreach anyop s1 /\ shows s1 l1.
Proof. exact (run_reach os1 0 8 s1 os1_legal (proj1 os1_runs)). Qed.

(** A container with blocks of three types and an empty block. *)
Definition os2 : list (@op xv) :=
  [OSetRange None 0 [(1, 10); (1, 11)]; OSet None 2 (2, 20); OSetRange None 3 [(1, 12); (1, 13)];
   OSet None 6 (5, 50)].
Lemma os2_legal : legal_all xcat xman os2 (repeat None 8).
Proof. unfold os2. xlegal. Qed.
Definition s2 : xst := match run xcat xman os2 (mk_size 0 8) with Ok s => s | _ => mk_empty 0 end.
Definition l2 : list (option xv) :=
  [Some (1, 10); Some (1, 11); Some (2, 20); Some (1, 12); Some (1, 13); None; Some (5, 50); None].
Example s2_reach : xreach anyop s2 /\ shows s2 l2.
Proof. apply (run_reach os2 0 8 s2 os2_legal). vm_compute. reflexivity. Qed.
Example s2_blocks : map (fun i => block s2 i) (seq 0 7) =
  [Some (Some 1, 0, 2); Some (Some 2, 2, 1); Some (Some 1, 3, 2); Some (None, 5, 1);
   Some (Some 5, 6, 1); Some (None, 7, 1); None].
Proof. vm_compute. reflexivity. Qed.

(** C37-C42 on it. *)
Example C37_case : 6 < size s2 /\ hint_ok (Some (Some 1)) l2 /\
  exists s', drop_it (set xcat xman (Some (Some 1)) 6 (1, 99) s2) = Ok s' /\
    get 6 s' = Ok (Some (1, 99)) /\ freed s' = [(5, 50)].
Proof. split; [vm_compute; lia|]. split; [right; discriminate|]. eexists. vm_compute. auto. Qed.
Example C38_case : one_type xcat [(2, 7); (2, 8); (2, 9)] /\ 1 + 3 <= size s2 /\
  exists s', drop_it (set_range xcat xman None 1 [(2, 7); (2, 8); (2, 9)] s2) = Ok s' /\ get 3 s' = Ok (Some (2, 9)).
Proof. split; [xone|]. split; [vm_compute; lia|]. eexists. vm_compute. auto. Qed.
Example C39_case : one_type xcat [(5, 7); (5, 8)] /\ 1 < size s2 /\
  exists s', drop_it (insert xcat None 1 [(5, 7); (5, 8)] s2) = Ok s' /\ get 3 s' = Ok (Some (1, 11)).
Proof. split; [xone|]. split; [vm_compute; lia|]. eexists. vm_compute. auto. Qed.
Example C40_case : exists s', erase xman 1 5 s2 = Ok s' /\ get 1 s' = Ok (Some (5, 50)) /\ size s' = 3.
Proof. eexists. vm_compute. auto. Qed.
Example C41_case : exists s', drop_it (set_empty xman None 1 3 s2) = Ok s' /\ get 2 s' = Ok None.
Proof. eexists. vm_compute. auto. Qed.
Example C42_case : cut_ok xcat xman 4 l2 /\
  exists s', resize xman 4 s2 = Ok s' /\ size s' = 4 /\ get 3 s' = Ok (Some (1, 12)) /\ freed s' = [(5, 50)].
Proof. split; [xone|]. eexists. vm_compute. auto. Qed.

(** Finding M2: a shrinking resize that cuts inside a block of managed elements
    passes an absolute row number as the offset in the block (main 5128): rows 2..4
    hold managed elements, resize(4) is undefined behaviour. *)
Theorem C42_resize_refuted :
  exists (s : xst) l n, xreach anyop s /\ shows s l /\ n <= size s /\ resize xman n s = Undef.
Proof.
  pose (os := [OSetRange None 2 [(5, 50); (5, 51); (5, 52)]] : list (@op xv)).
  destruct (run xcat xman os (mk_size 0 6)) as [s| |] eqn:E; [|vm_compute in E; discriminate..].
  exists s, (run_spec os (repeat None 6)), 4.
  assert (legal_all xcat xman os (repeat None 6)) as Hl by (unfold os; xlegal).
  destruct (run_reach os 0 6 s Hl E) as [R S]. split; [exact R|]. split; [exact S|].
  vm_compute in E. injection E as <-. split; [vm_compute; lia|]. vm_compute. reflexivity.
Qed.

(** Finding M4: after a range set that starts in a block of the new type and ends
    exactly at the end of another block, the following block of the new type is not
    merged: neighbours of one type, and a container with the same content built in
    another way compares different. *)
Definition os4 : list (@op xv) :=
  [OSetRange None 0 [(1, 10); (1, 11)]; OSet None 2 (2, 20); OSetRange None 3 [(1, 12); (1, 13)];
   OSetRange None 0 [(1, 7); (1, 8); (1, 9)]].
Definition s4 : xst := match run xcat xman os4 (mk_size 0 5) with Ok s => s | _ => mk_empty 0 end.
Definition s4' : xst :=
  match mk_range xcat 1 5 [(1, 7); (1, 8); (1, 9); (1, 12); (1, 13)] with Ok s => s | _ => mk_empty 0 end.
Lemma s4_reach : xreach anyop s4 /\
  shows s4 [Some (1, 7); Some (1, 8); Some (1, 9); Some (1, 12); Some (1, 13)].
Proof. apply (run_reach os4 0 5 s4). unfold os4. xlegal. vm_compute. reflexivity. Qed.

Theorem C45_neighbours_differ_refuted :
  exists s, xreach anyop s /\ block s 0 = Some (Some 1, 0, 3) /\ block s 1 = Some (Some 1, 3, 2).
Proof. exists s4. split; [apply s4_reach|]. vm_compute. auto. Qed.

Theorem C46_equal_content_refuted :
  exists a b l, xreach anyop a /\ xreach anyop b /\ shows a l /\ shows b l /\ eq_mtv xeq a b = false.
Proof.
  exists s4, s4', [Some (1, 7); Some (1, 8); Some (1, 9); Some (1, 12); Some (1, 13)].
  split; [apply s4_reach|]. split.
  { apply (r_range _ _ _ _ _ 1 5 [(1, 7); (1, 8); (1, 9); (1, 12); (1, 13)]); [|reflexivity]. xone. }
  split; [apply s4_reach|]. split; [|vm_compute; reflexivity].
  split; [reflexivity|]. intros i x Hi.
  do 5 (destruct i as [|i]; [injection Hi as <-; reflexivity|]). destruct i; discriminate.
Qed.

(** A history without such range sets, and the comparison of two containers built
    in different ways. *)
Definition os5 : list (@op xv) :=
  [OSet None 1 (1, 11); OSet None 0 (1, 10); OSet None 2 (2, 20)].
Lemma os5_ok : legal_all xcat xman os5 (repeat None 3) /\ none_bad (unmerged xcat) os5 (repeat None 3).
Proof.
  split; [unfold os5; xlegal|].
  unfold os5. repeat (eapply none_cons; [cbn [unmerged]; tauto|vm_compute; reflexivity|]). exact I.
Qed.
Example C45_case : exists s, run xcat xman os5 (mk_size 3 3) = Ok s /\
  xreach (fun l o => ~ unmerged xcat l o) s /\ shows s [Some (1, 10); Some (1, 11); Some (2, 20)].
Proof.
  exact (run_refines_bad xcat xman xdup xcopy xdup_cat (unmerged xcat) os5 (mk_size 3 3) (repeat None 3)
          (r_size _ _ _ _ _ 3 3) (size_shows 3 3) (proj1 os5_ok) (proj2 os5_ok)).
Qed.

(** Copies: copyable values, and a block type that cannot be copied. *)
Example C46_copy_case :
  (forall x v, In x l2 -> x = Some v -> xcopy (xcat v) = true) /\
  exists s', copy_of xdup xcopy 7 s2 = Ok s' /\ get 6 s' = Ok (Some (5, 51)) /\ get 2 s' = Ok (Some (2, 20)).
Proof.
  split; [|eexists; vm_compute; auto].
  intros x v Hx ->. cbn in Hx. repeat (destruct Hx as [Hx|Hx]; [try discriminate; injection Hx as <-; reflexivity|]).
  destruct Hx.
Qed.

(** Finding M6: a hint on a container without rows reads block 0. *)
Theorem C47_hint_refuted :
  exists (s : xst) h, xreach anyop s /\ set xcat xman None 0 (1, 1) s = Throw E_out_of_range /\
    set xcat xman (Some h) 0 (1, 1) s = Undef.
Proof. exists (mk_size 0 0), (Some 0). split; [apply r_size|]. split; reflexivity. Qed.
Example C47_case : 0 < size s2 /\ position (Some (Some 3)) 1 s2 = position None 1 s2.
Proof. split; [vm_compute; lia|]. vm_compute. reflexivity. Qed.

Example C48_case : position None 4 s2 = Ok (2, 1) /\ advance_position (2, 1) 2 s2 = Ok (4, 0) /\
  advance_position (2, 1) (-4) s2 = Ok (0, 0) /\ advance_position (2, 1) 4 s2 = position None 8 s2 /\
  next_position (2, 1) s2 = Ok (3, 0) /\ get_at (2, 1) s2 = Ok (1, 13).
Proof. vm_compute. auto 10. Qed.

(** A history for the ownership theorem: objects are freed by overwriting and
    erasing, handed back by release, and some stay. *)
Definition os6 : list (@op xv) :=
  [OSetRange None 0 [(5, 50); (5, 51); (5, 52); (5, 53)]; OSet None 1 (1, 10); ORelease None 0;
   OErase 2 2; OPush (7, 70); OInsert None 1 [(5, 54)]; OReleaseRange None 2 3].
Example C50_case : legal_all xcat xman os6 (repeat None 5) /\ none_bad (leaky xcat xman) os6 (repeat None 5) /\
  given_all xcat xman os6 (repeat None 5) = [(5, 50); (5, 51); (5, 52); (5, 53); (7, 70); (5, 54)] /\
  taken_all xcat xman os6 (repeat None 5) = [(5, 50); (5, 53)] /\
  exists s, run xcat xman os6 (mk_size 0 5) = Ok s /\ freed s = [(5, 51); (5, 52)] /\
    objects xcat xman (run_spec os6 (repeat None 5)) = [(5, 54); (7, 70)].
Proof.
  split; [unfold os6; xlegal|]. split.
  { unfold os6. repeat (eapply none_cons; [cbn [leaky]; try tauto|vm_compute; reflexivity|]); [|exact I]. intros [H _]. discriminate H. }
  split; [vm_compute; reflexivity|]. split; [vm_compute; reflexivity|].
  eexists. split; [vm_compute; reflexivity|]. split; vm_compute; reflexivity.
Qed.

(** Finding M3: a range set that starts in a block of the new type and ends inside a
    block of managed elements drops the overwritten elements without deleting
    them. *)
Theorem C50_owned_once_refuted :
  exists (os : list (@op xv)) s, legal_all xcat xman os (repeat None 5) /\
    run xcat xman os (mk_size 0 5) = Ok s /\
    given_all xcat xman os (repeat None 5) = [(5, 50); (5, 51); (5, 52)] /\
    taken_all xcat xman os (repeat None 5) = [] /\ freed s = [] /\
    objects xcat xman (run_spec os (repeat None 5)) = [(5, 51); (5, 52)].
Proof.
  exists [OSetRange None 0 [(1, 10); (1, 11)]; OSetRange None 2 [(5, 50); (5, 51); (5, 52)];
          OSetRange None 1 [(1, 12); (1, 13)]].
  eexists. split; [xlegal|]. split; [vm_compute; reflexivity|]. vm_compute. auto.
Qed.

(** A history for the event theorem. *)
Definition os7 : list (@op xv) :=
  [OSetRange None 0 [(1, 1); (1, 2); (1, 3)]; OSetRange None 1 [(2, 1); (2, 2); (2, 3)];
   OSet None 2 (1, 10); OSet None 3 (2, 20); OInsert None 3 [(1, 11)]; OSetEmpty None 2 3; OPush (1, 5);
   OSet None 4 (1, 7); OErase 1 4; OInsertEmpty None 0 2].
Example C52_case : legal_all xcat xman os7 (repeat None 5) /\ none_bad (event_exempt xcat) os7 (repeat None 5) /\
  exists s, run xcat xman os7 (mk_size 0 5) = Ok s /\
    acq s = [((0, 0), 1); ((0, 1), 2); ((0, 2), 2); ((0, 3), 1); ((0, 4), 1); ((0, 5), 1)] /\
    blocks_held s = [((0, 0), 1); ((0, 4), 1)].
Proof.
  split; [unfold os7; xlegal|]. split.
  { unfold os7. repeat (eapply none_cons; [cbn [event_exempt]; try tauto|vm_compute; reflexivity|]); [| | |exact I].
    - intros [(c & _ & _ & H)|[H _]]; [specialize (H 0 ltac:(lia))|]; discriminate H.
    - intros [(c & _ & _ & H)|[H _]]; [|discriminate H].
      pose proof (H 0 ltac:(lia)) as H0. specialize (H 3 ltac:(cbn; lia)). discriminate H.
    - intros (v & Hv & Hne & [H|[H _]]); [discriminate|]. apply H. reflexivity. }
  eexists. vm_compute. repeat split.
Qed.

(** Findings M1 and M8: insert reports the old block instead of the new one; a range
    set replaces a block without reporting. *)
Theorem C52_events_refuted :
  (exists (os : list (@op xv)) s p, legal_all xcat xman os (repeat None 3) /\
     run xcat xman os (mk_size 0 3) = Ok s /\
     os = [OSet None 0 (1, 10); OInsert None 0 [(2, 20)]] /\
     count p (acq s) <> count p (rel s) + count p (blocks_held s)) /\
  (exists (os : list (@op xv)) s p, legal_all xcat xman os (repeat None 5) /\
     run xcat xman os (mk_size 0 5) = Ok s /\
     (forall o, In o os -> match o with OSet _ _ _ | OSetRange _ _ _ => True | _ => False end) /\
     count p (acq s) <> count p (rel s) + count p (blocks_held s)).
Proof.
  split.
  - exists [OSet None 0 (1, 10); OInsert None 0 [(2, 20)]]. eexists.
    exists (fun x => snd x =? 2). split; [xlegal|]. split; [vm_compute; reflexivity|].
    split; [reflexivity|]. vm_compute. discriminate.
  - exists [OSetRange None 0 [(1, 1); (1, 2); (1, 3)]; OSet None 3 (2, 1); OSetRange None 0 [(2, 5); (2, 6)]]. eexists.
    exists (fun x => snd (fst x) =? 0). split; [xlegal|]. split; [vm_compute; reflexivity|].
    split; [cbn; intuition (subst; exact I)|]. vm_compute. discriminate.
Qed.

(** Finding M7: a moved-from container reports its old size, has no block, and
    push_back on it builds a block at the old size. *)
Theorem C53_moved_from_refuted :
  exists (s : xst) l s' i, xreach anyop s /\ shows s l /\
    size (snd (move_of s)) = 8 /\ get 0 (snd (move_of s)) = Throw E_out_of_range /\
    push_back xcat xman (1, 5) (snd (move_of s)) = Ok (s', i) /\ size s' = 9 /\ get 0 s' = Undef.
Proof.
  exists s2, l2. eexists. eexists. split; [apply s2_reach|]. split; [apply s2_reach|].
  split; [vm_compute; reflexivity|]. split; [vm_compute; reflexivity|].
  split; [vm_compute; reflexivity|]. split; vm_compute; reflexivity.
Qed.

(** One query for all the theorems of this file. *)
Definition Mtv_theorems :=
  (@C37_set, @C37_out_of_range, @C38_set_range, @C38_empty_range,
   @C38_out_of_range, @C39_insert, @C39_insert_out_of_range, @C39_insert_empty,
   @C39_insert_empty_out_of_range, @C40_erase, @C40_out_of_range, @C41_set_empty,
   @C41_release_range, @C41_release, @C41_out_of_range, @C41_release_all,
   @C42_resize_partial, @C42_push_back, @C42_push_back_empty, @C37_C42_histories,
   @C37_get_total, @C45_blocks, @C45_neighbours_differ_partial, @C46_equal_content_partial,
   @C46_equal_sound, @C46_copy, @C47_hint_partial, @C47_out_of_range,
   @C48_position, @C48_next_position, @C48_advance_position, @C50_owned_once_partial,
   @C50_destroy, @C52_events_partial, @C53_moved_partial, @C53_assign,
   @C42_resize_refuted, @C45_neighbours_differ_refuted, @C46_equal_content_refuted, @C47_hint_refuted,
   @C50_owned_once_refuted, @C52_events_refuted, @C53_moved_from_refuted).
Print Assumptions Mtv_theorems.
