(** Properties C16, C17 and C62: mdds::mtv::delayed_delete_vector refines a plain list. *)
From Coq Require Import List ZArith Lia Bool ZifyBool ZifyNat.
From Verif Require Import Base DdvModel.
Import ListNotations.

(** * Specification: what a std::vector does, on lists *)
Section Spec.
Context {T : Type}.
Variable tdef : T.
(** Calls a std::vector accepts. *)
Definition allowed (l : list T) (o : ddv_op T) : Prop :=
  match o with
  | DPut i _ | DErase i => (i < length l)%nat
  | DInsert i _ | DInsertRange i _ => (i <= length l)%nat
  | DEraseRange i j => (i <= j <= length l)%nat
  | _ => True
  end.
(** Their effect. *)
Definition vstep (l : list T) (o : ddv_op T) : list T :=
  match o with
  | DPush v => l ++ [v]
  | DPut i v => firstn i l ++ v :: skipn (S i) l
  | DInsert i v => firstn i l ++ v :: skipn i l
  | DInsertRange i r => firstn i l ++ r ++ skipn i l
  | DResize n => firstn n l ++ repeat tdef (n - length l)
  | DErase i => firstn i l ++ skipn (S i) l
  | DEraseRange i j => firstn i l ++ skipn j l
  | DCompact => l
  | DAssign r => r
  end.
(** A history of accepted calls. *)
Fixpoint vrun (l : list T) (ops : list (ddv_op T)) (r : list T) : Prop :=
  match ops with
  | [] => l = r
  | o :: rest => allowed l o /\ vrun (vstep l o) rest r
  end.
(** The sequence visible through size(), operator[], at(), forward and backward iteration. *)
Definition shows (d : ddv T) (l : list T) : Prop :=
  ((Z.of_nat (length l) < 2 ^ 64)%Z -> ddv_size d = Z.of_nat (length l)) /\
  (forall i, ddv_get d i = deref (nth_error l i)) /\
  (forall i, ddv_at d i = match nth_error l i with Some v => Ok v | None => Throw E_out_of_range end) /\
  ddv_iter d = Ok l /\ ddv_riter d = Ok (rev l).
End Spec.

(** * Lemmas *)
Section L.
Context {T : Type}.
Variable tdef : T.
Definition rep (d : ddv T) (l : list T) : Prop := exists junk, vec d = junk ++ l /\ off d = length junk.

Lemma rep_shows d l : rep d l -> shows d l.
Proof.
  intros (j & E & O). destruct d as [v o]. simpl in *. subst. unfold shows, ddv_size, ddv_get, ddv_at, ddv_iter, ddv_riter. cbn [vec off].
  rewrite app_length. replace (length j <=? length j + length l)%nat with true by lia.
  assert (forall i, nth_error (j ++ l) (i + length j) = nth_error l i) as HN.
  { intros i. rewrite nth_error_app2 by lia. f_equal. lia. }
  split; [intros H; replace (Z.of_nat (length j + length l) - Z.of_nat (length j))%Z with (Z.of_nat (length l)) by lia; apply Z.mod_small; lia|].
  split; [intros i; now rewrite HN|]. split; [intros i; now rewrite HN|]. rewrite skipn_app_exact. split; [reflexivity|].
  rewrite rev_app_distr. replace (length j + length l - length j)%nat with (length (rev l)) by (rewrite rev_length; lia).
  now rewrite firstn_app_exact.
Qed.

Lemma firstn_j (j l : list T) i : firstn (i + length j) (j ++ l) = j ++ firstn i l.
Proof. rewrite firstn_app. rewrite firstn_all2 by lia. f_equal. f_equal. lia. Qed.
Lemma skipn_j (j l : list T) i : skipn (i + length j) (j ++ l) = skipn i l.
Proof. rewrite skipn_app. rewrite skipn_all2 by lia. simpl. f_equal. lia. Qed.
Lemma set_nth_firstn (v : T) : forall l i, (i < length l)%nat -> set_nth i v l = firstn i l ++ v :: skipn (S i) l.
Proof. induction l as [|a l IH]; intros [|i] H; simpl in *; try lia; [reflexivity|]. f_equal. apply IH. lia. Qed.

Lemma step_rep d l o : rep d l -> allowed l o -> exists d', ddv_step tdef d o = Ok d' /\ rep d' (vstep tdef l o).
Proof.
  intros (j & E & O) HA. destruct d as [v f]. simpl in E, O. subst v f.
  assert (length (j ++ l) = length j + length l)%nat as HL by apply app_length.
  destruct o as [w|i w|i w|i r|n|i|i k| |r]; cbn [ddv_step allowed vstep] in *.
  - eexists. split; [reflexivity|]. exists j. split; [|reflexivity]. simpl. now rewrite app_assoc.
  - unfold ddv_put. cbn [vec off]. replace (i + length j <? length (j ++ l))%nat with true by lia.
    eexists. split; [reflexivity|]. exists j. split; [|reflexivity]. cbn [vec]. rewrite set_nth_firstn by lia.
    rewrite firstn_j. change (S (i + length j)) with (S i + length j)%nat. now rewrite skipn_j, <- app_assoc.
  - unfold ddv_insert. cbn [vec off]. replace (i + length j <=? length (j ++ l))%nat with true by lia.
    eexists. split; [reflexivity|]. exists j. split; [|reflexivity]. cbn [vec]. now rewrite firstn_j, skipn_j, <- app_assoc.
  - unfold ddv_insert_range. cbn [vec off]. replace (i + length j <=? length (j ++ l))%nat with true by lia.
    eexists. split; [reflexivity|]. exists j. split; [|reflexivity]. cbn [vec]. now rewrite firstn_j, skipn_j, <- app_assoc.
  - eexists. split; [reflexivity|]. exists []. split; [|reflexivity]. cbn. now rewrite skipn_app_exact.
  - unfold ddv_erase. cbn [vec off]. destruct (Nat.eqb_spec i 0) as [->|N].
    + eexists. split; [reflexivity|]. destruct l as [|a l]; [simpl in HA; lia|]. exists (j ++ [a]). cbn [vec off]. split.
      * simpl. now rewrite <- app_assoc.
      * rewrite app_length. simpl. lia.
    + replace (i + length j <? length (j ++ l))%nat with true by lia.
      eexists. split; [reflexivity|]. exists j. split; [|reflexivity]. cbn [vec].
      rewrite firstn_j. change (S (i + length j)) with (S i + length j)%nat. now rewrite skipn_j, <- app_assoc.
  - unfold ddv_erase_range. cbn [vec off]. replace (i <=? k)%nat with true by lia. replace (k + length j <=? length (j ++ l))%nat with true by lia.
    eexists. split; [reflexivity|]. exists j. split; [|reflexivity]. cbn [vec]. now rewrite firstn_j, skipn_j, <- app_assoc.
  - eexists. split; [reflexivity|]. exists []. split; [|reflexivity]. cbn. now rewrite skipn_app_exact.
  - eexists. split; [reflexivity|]. exists []. split; reflexivity.
Qed.

Lemma run_rep ops : forall d l r, rep d l -> vrun tdef l ops r -> exists d', ddv_run tdef d ops = Ok d' /\ rep d' r.
Proof.
  induction ops as [|o ops IH]; intros d l r H HR; cbn [ddv_run vrun] in *.
  - subst. eauto.
  - destruct HR as [HA HR]. destruct (step_rep d l o H HA) as (d1 & E & H1). rewrite E. cbn [bind]. eapply IH; eauto.
Qed.

Lemma refine_lemma start ops r : vrun tdef start ops r -> exists d, ddv_run tdef (ddv_range start) ops = Ok d /\ shows d r.
Proof.
  intros H. destruct (run_rep ops (ddv_range start) start r) as (d & E & HR); [exists []; auto|assumption|].
  exists d. split; [assumption|]. now apply rep_shows.
Qed.

Lemma eq_lemma (teqb : T -> T -> bool) : eqb_ok teqb -> forall s1 o1 r1 s2 o2 r2, vrun tdef s1 o1 r1 -> vrun tdef s2 o2 r2 ->
  exists a b x, ddv_run tdef (ddv_range s1) o1 = Ok a /\ ddv_run tdef (ddv_range s2) o2 = Ok b /\ ddv_eqb teqb a b = Ok x /\ (x = true <-> r1 = r2).
Proof.
  intros HE s1 o1 r1 s2 o2 r2 H1 H2. destruct (refine_lemma _ _ _ H1) as (a & Ea & _ & _ & _ & Ia & _).
  destruct (refine_lemma _ _ _ H2) as (b & Eb & _ & _ & _ & Ib & _). unfold ddv_eqb. exists a, b. eexists.
  rewrite Ia, Ib. cbn [bind]. repeat (split; [eassumption || reflexivity|]). clear -HE.
  revert r2. induction r1 as [|x r1 IH]; intros [|y r2]; simpl; try (split; congruence).
  rewrite andb_true_iff, andb_true_iff. specialize (IH r2). rewrite andb_true_iff in IH. rewrite (HE x y). split.
  - intros (L & -> & F). f_equal. apply IH. auto.
  - intros E. injection E as -> ->. destruct (proj2 IH eq_refl). auto.
Qed.

Lemma swap_lemma (a b : ddv T) la lb : rep a la -> rep b lb -> off a = off b ->
  shows (fst (ddv_swap a b)) lb /\ shows (snd (ddv_swap a b)) la.
Proof.
  intros (ja & Ea & Oa) (jb & Eb & Ob) E. split; apply rep_shows; [exists jb|exists ja]; simpl; split; congruence.
Qed.
End L.

(** * Theorems *)
(** C16: after any history of calls a std::vector accepts, the same sequence is visible. *)
Theorem C16_vector : forall (T : Type) (tdef : T) start ops r, vrun tdef start ops r ->
  exists d, ddv_run tdef (ddv_range start) ops = Ok d /\ shows d r.
Proof. exact @refine_lemma. Qed.
Definition ex_ops : list (ddv_op nat) :=
  [DPush 7; DErase 0; DErase 0; DInsert 1 5; DErase 0; DPut 0 9; DErase 1; DPush 3; DInsertRange 1 [1; 2]; DEraseRange 1 2; DErase 0; DResize 4]%nat.
Example C16_vector_ex : vrun 0%nat [1; 2; 3]%nat ex_ops [2; 3; 0; 0]%nat.
Proof. cbn. repeat split; lia. Qed.

(** C16: every constructor and a copy are a starting point for such a history, and the
    source of a copy keeps its sequence. *)
Theorem C16_constructors : forall (T : Type) (tdef : T) ops r,
  (vrun tdef [] ops r -> exists d, ddv_run tdef ddv_new ops = Ok d /\ shows d r) /\
  (forall n v, vrun tdef (repeat v n) ops r -> exists d, ddv_run tdef (ddv_fill n v) ops = Ok d /\ shows d r) /\
  (forall start ops0 l, vrun tdef start ops0 l -> exists d0, ddv_run tdef (ddv_range start) ops0 = Ok d0 /\ shows d0 l /\
     (vrun tdef l ops r -> exists d, ddv_run tdef (ddv_copy d0) ops = Ok d /\ shows d r)).
Proof.
  intros T tdef ops r. split; [intros H; exact (refine_lemma tdef [] ops r H)|].
  split; [intros n v H; exact (refine_lemma tdef (repeat v n) ops r H)|].
  intros start ops0 l H. destruct (run_rep tdef ops0 (ddv_range start) start l) as (d0 & E & R); [exists []; auto|exact H|].
  exists d0. split; [exact E|]. split; [now apply rep_shows|]. intros H2.
  destruct (run_rep tdef ops d0 l r R H2) as (d & E2 & R2). exists d. split; [exact E2|]. now apply rep_shows.
Qed.
Example C16_constructors_ex : vrun 0%nat [] [DPush 7; DPush 8; DErase 0]%nat [8]%nat /\
  vrun 0%nat (repeat 4 2)%nat [DErase 0; DPush 1]%nat [4; 1]%nat.
Proof. cbn. repeat split; lia. Qed.

(** C16: operator== compares the visible sequences. *)
Theorem C16_equality : forall (T : Type) (tdef : T) (teqb : T -> T -> bool), eqb_ok teqb ->
  forall s1 o1 r1 s2 o2 r2, vrun tdef s1 o1 r1 -> vrun tdef s2 o2 r2 ->
  exists a b x, ddv_run tdef (ddv_range s1) o1 = Ok a /\ ddv_run tdef (ddv_range s2) o2 = Ok b /\
  ddv_eqb teqb a b = Ok x /\ (x = true <-> r1 = r2).
Proof. exact @eq_lemma. Qed.
Example C16_equality_ex : vrun 0%nat [1; 2]%nat [DErase 0%nat] [2]%nat /\ vrun 0%nat [2]%nat [] [2]%nat.
Proof. cbn. repeat split; lia. Qed.

(** C17 in full: a.swap(b) exchanges what a and b show.  It holds when both have the same
    number of pending front deletions. *)
Theorem C17_swap_partial : forall (T : Type) (a b : ddv T) la lb, rep a la -> rep b lb -> off a = off b ->
  shows (fst (ddv_swap a b)) lb /\ shows (snd (ddv_swap a b)) la.
Proof. exact @swap_lemma. Qed.
Example C17_swap_ex : rep (mkDdv [1; 2; 3] 1)%nat [2; 3]%nat /\ rep (mkDdv [4; 5] 1)%nat [5]%nat.
Proof. split; [exists [1%nat]|exists [4%nat]]; split; reflexivity. Qed.
(** After one erase at the front, swap shows the erased element again in one vector and
    loses an element of the other. *)
Theorem C17_swap_refuted : exists a b, ddv_run 0%nat (ddv_range [1; 2]%nat) [DErase 0%nat] = Ok a /\ shows a [2]%nat /\
  ddv_run 0%nat (ddv_range [5; 6]%nat) [] = Ok b /\ shows b [5; 6]%nat /\
  shows (fst (ddv_swap a b)) [6]%nat /\ shows (snd (ddv_swap a b)) [1; 2]%nat.
Proof.
  eexists; eexists. split; [reflexivity|]. split; [apply rep_shows; exists [1%nat]; split; reflexivity|].
  split; [reflexivity|]. split; [apply rep_shows; exists []; split; reflexivity|].
  split; apply rep_shows; [exists [5%nat]|exists []]; split; reflexivity.
Qed.
(** Swapping with an empty vector even makes the size wrap around. *)
Theorem C17_swap_size_refuted : exists a b, ddv_run 0%nat (ddv_range [1]%nat) [DErase 0%nat] = Ok a /\ shows a [] /\
  ddv_run 0%nat (ddv_range []) [] = Ok b /\ shows b [] /\
  ddv_size (fst (ddv_swap a b)) = (2 ^ 64 - 1)%Z /\ ddv_iter (fst (ddv_swap a b)) = Undef.
Proof.
  eexists; eexists. split; [reflexivity|]. split; [apply rep_shows; exists [1%nat]; split; reflexivity|].
  split; [reflexivity|]. split; [apply rep_shows; exists []; split; reflexivity|]. split; reflexivity.
Qed.

(** C62: moving.  The moved-to vector shows the source's sequence.  The moved-from vector is
    empty unless front deletions were pending. *)
Theorem C62_moved_partial : forall (T : Type) (d : ddv T) l, rep d l ->
  shows (fst (ddv_move d)) l /\ (off d = 0%nat -> shows (snd (ddv_move d)) []).
Proof.
  intros T d l H. split; [now apply rep_shows|]. intros E. apply rep_shows. exists []. simpl. auto.
Qed.
Example C62_moved_ex : rep (mkDdv [1; 2] 0)%nat [1; 2]%nat.
Proof. exists []. split; reflexivity. Qed.
Theorem C62_moved_refuted : exists d, ddv_run 0%nat (ddv_range [1; 2]%nat) [DErase 0%nat] = Ok d /\
  ddv_size (snd (ddv_move d)) = (2 ^ 64 - 1)%Z /\ ddv_iter (snd (ddv_move d)) = Undef.
Proof. eexists. split; [reflexivity|]. split; reflexivity. Qed.

(** One query for all the theorems of this file. *)
Definition DdvProps_theorems :=
  (@C16_vector, @C16_constructors, @C16_equality, @C17_swap_partial, @C17_swap_refuted,
   @C17_swap_size_refuted, @C62_moved_partial, @C62_moved_refuted).
Print Assumptions DdvProps_theorems.
