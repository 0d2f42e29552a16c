(** C84: element blocks over delayed_delete_vector behave like blocks over std::vector, and
    like the lists MtvModel.v uses for them. *)
From Coq Require Import List ZArith Lia Bool ZifyBool ZifyNat.
From Verif Require Import Base DdvModel DdvProps BlkModel MtvModel.
Import ListNotations.
Open Scope nat_scope.

(** * Specification: blocks as typed lists *)
Section Spec.
Context {V : Type}.
Variable vdef : V.
Variables registered copyable : nat -> bool.
(** A heap of typed sequences *)
Definition lheap : Type := list (option (nat * list V)).
(** The live block at an address *)
Definition at_ (a t : nat) (l : list V) (h : lheap) : Prop := nth_error h a = Some (Some (t, l)).
(** [h'] is [h] with [l] as the sequence of the block at [a] *)
Definition with_seq (a t : nat) (l : list V) (h h' : lheap) : Prop := h' = firstn a h ++ Some (t, l) :: skipn (S a) h.
(** What a call has to do where a std::vector would accept it: new heap or exception *)
Inductive does : lheap -> @bop V -> lheap + exn -> Prop :=
| does_create h t n : registered t = true -> does h (BCreate t n) (inl (h ++ [Some (t, repeat vdef n)]))
| does_value h t n v : does h (BCreateValue t n v) (inl (h ++ [Some (t, repeat v n)]))
| does_values h t l : does h (BCreateValues t l) (inl (h ++ [Some (t, l)]))
| does_create_unknown h t n : registered t = false -> does h (BCreate t n) (inr E_general)
| does_copy h a t l : at_ a t l h -> registered t = true -> copyable t = true -> does h (BCopy a) (inl (h ++ [Some (t, l)]))
| does_copy_not h a t l : at_ a t l h -> registered t = true -> copyable t = false -> does h (BCopy a) (inr E_element_block)
| does_delete h a t l : at_ a t l h -> registered t = true -> does h (BDelete a) (inl (firstn a h ++ None :: skipn (S a) h))
| does_resize h h' a t l n : at_ a t l h -> registered t = true ->
    with_seq a t (firstn n l ++ repeat vdef (n - length l)) h h' -> does h (BResize a n) (inl h')
| does_erase h h' a t l x r : at_ a t (l ++ x :: r) h -> registered t = true -> with_seq a t (l ++ r) h h' ->
    does h (BErase a (length l)) (inl h')
| does_erase_n h h' a t l x r : at_ a t (l ++ x ++ r) h -> registered t = true -> with_seq a t (l ++ r) h h' ->
    does h (BEraseN a (length l) (length x)) (inl h')
| does_append_block h h' a b t l m : a <> b -> at_ a t l h -> at_ b t m h -> registered t = true ->
    with_seq a t (l ++ m) h h' -> does h (BAppendBlock a b) (inl h')
| does_append_from h h' a b t l m1 m m2 : a <> b -> at_ a t l h -> at_ b t (m1 ++ m ++ m2) h -> registered t = true ->
    with_seq a t (l ++ m) h h' -> does h (BAppendFrom a b (length m1) (length m)) (inl h')
| does_assign_from h h' a b t l m1 m m2 : a <> b -> at_ a t l h -> at_ b t (m1 ++ m ++ m2) h -> registered t = true ->
    with_seq a t m h h' -> does h (BAssignFrom a b (length m1) (length m)) (inl h')
| does_prepend_from h h' a b t l m1 m m2 : a <> b -> at_ a t l h -> at_ b t (m1 ++ m ++ m2) h -> registered t = true ->
    with_seq a t (m ++ l) h h' -> does h (BPrependFrom a b (length m1) (length m)) (inl h')
| does_swap h h1 h2 a b t l1 l l2 m1 m m2 : a <> b -> length l = length m ->
    at_ a t (l1 ++ l ++ l2) h -> at_ b t (m1 ++ m ++ m2) h -> registered t = true ->
    with_seq a t (l1 ++ m ++ l2) h h1 -> with_seq b t (m1 ++ l ++ m2) h1 h2 ->
    does h (BSwap a b (length l1) (length m1) (length l)) (inl h2)
| does_overwrite h a t l i n : at_ a t l h -> registered t = true -> does h (BOverwrite a i n) (inl h)
| does_shrink h a t l : at_ a t l h -> registered t = true -> does h (BShrink a) (inl h)
| does_set h h' a t l x r v : at_ a t (l ++ x :: r) h -> with_seq a t (l ++ v :: r) h h' -> does h (BSet t a (length l) v) (inl h')
| does_append h h' a t l v : at_ a t l h -> with_seq a t (l ++ [v]) h h' -> does h (BAppend t a v) (inl h')
| does_prepend h h' a t l v : at_ a t l h -> with_seq a t (v :: l) h h' -> does h (BPrepend t a v) (inl h')
| does_set_values h h' a t l x r vs : length x = length vs -> at_ a t (l ++ x ++ r) h -> with_seq a t (l ++ vs ++ r) h h' ->
    does h (BSetValues t a (length l) vs) (inl h')
| does_append_values h h' a t l vs : at_ a t l h -> with_seq a t (l ++ vs) h h' -> does h (BAppendValues t a vs) (inl h')
| does_prepend_values h h' a t l vs : at_ a t l h -> with_seq a t (vs ++ l) h h' -> does h (BPrependValues t a vs) (inl h')
| does_assign_values h h' a t l vs : at_ a t l h -> with_seq a t vs h h' -> does h (BAssignValues t a vs) (inl h')
| does_insert_values h h' a t l r vs : at_ a t (l ++ r) h -> with_seq a t (l ++ vs ++ r) h h' ->
    does h (BInsertValues t a (length l) vs) (inl h')
| does_unknown h a t l o : at_ a t l h -> registered t = false ->
    In o [BCopy a; BDelete a; BShrink a] \/ (exists n, o = BResize a n) \/ (exists i, o = BErase a i) \/
    (exists i n, o = BEraseN a i n) \/ (exists i n, o = BOverwrite a i n) ->
    does h o (inr E_general).
(** Histories in which no call throws *)
Inductive history : lheap -> list (@bop V) -> lheap -> Prop :=
| history_nil h : history h [] h
| history_cons h o h1 r h2 : does h o (inl h1) -> history h1 r h2 -> history h (o :: r) h2.
End Spec.

(** * Lemmas *)
Section L.
Context {V : Type}.
Variable vdef : V.
Variables registered copyable : nat -> bool.
Notation does := (does vdef registered copyable).
Notation bstep := (bstep vdef registered copyable).

Lemma nth_error_skipn {A} (l : list A) n i : nth_error (skipn n l) i = nth_error l (n + i).
Proof. revert l. induction n as [|n IH]; intros [|a l]; cbn; auto. now destruct i. Qed.
Lemma nth_error_firstn_lt {A} (l : list A) n i : i < n -> nth_error (firstn n l) i = nth_error l i.
Proof.
  revert l i. induction n as [|n IH]; intros [|a l] [|i] H; cbn; auto; try lia. apply IH. lia.
Qed.
Lemma at_other a b t s t' s' (h h1 : @lheap V) : a <> b -> at_ a t s h -> at_ b t' s' h -> forall s1, with_seq a t s1 h h1 -> at_ b t' s' h1.
Proof.
  unfold at_. intros N Ea Eb s1 ->. assert (a < length h) by (apply nth_error_Some; congruence).
  assert (length (firstn a h) = a) as Lf by (rewrite firstn_length; lia). destruct (Nat.lt_ge_cases b a).
  - rewrite nth_error_app1 by lia. rewrite nth_error_firstn_lt by lia. exact Eb.
  - rewrite nth_error_app2 by lia. rewrite Lf. destruct (b - a) as [|k] eqn:Ek; [lia|]. cbn [nth_error].
    rewrite nth_error_skipn. replace (S a + k) with b by lia. exact Eb.
Qed.
(** A block shows a typed list *)
Definition same (x : option (@eb V)) (y : option (nat * list V)) : Prop :=
  match x, y with
  | None, None => True
  | Some b, Some (t, l) => btype b = t /\ rep (bstore b) l
  | _, _ => False
  end.
Definition shown (h : @heap V) (l : lheap) : Prop := Forall2 same h l.

Lemma shown_at h l a t s : shown h l -> at_ a t s l -> exists d, nth_error h a = Some (Some (mkEb t d)) /\ rep d s.
Proof.
  unfold at_. intros F. revert a. induction F as [|x y h l Hxy F IH]; intros [|a] E; try discriminate; cbn [nth_error] in *.
  - injection E as ->. destruct x as [[t' d]|]; [|contradiction]. destruct Hxy as [Ht Hr]. cbn in Ht, Hr. subst t'. eauto.
  - now apply IH.
Qed.
Lemma set_nth_split {A} (x : A) : forall l a, a < length l -> set_nth a x l = firstn a l ++ x :: skipn (S a) l.
Proof. induction l as [|y l IH]; intros [|a] H; cbn in *; try lia; [reflexivity|]. f_equal. apply IH. lia. Qed.
Lemma shown_len h l : shown h l -> length h = length l.
Proof. induction 1; cbn; congruence. Qed.
Lemma shown_set h l a x y : shown h l -> same x y -> a < length l -> shown (set_nth a x h) (firstn a l ++ y :: skipn (S a) l).
Proof.
  intros F. revert a. induction F as [|x' y' h l Hxy F IH]; intros [|a] S L; cbn in L |- *; try lia.
  - constructor; [exact S|exact F].
  - constructor; [exact Hxy|]. apply IH; [exact S|lia].
Qed.
Lemma at_lt a t s (l : @lheap V) : at_ a t s l -> a < length l.
Proof. unfold at_. intros E. apply nth_error_Some. congruence. Qed.
Lemma shown_save h l l' a t s d s' : shown h l -> at_ a t s l -> rep d s' -> with_seq a t s' l l' -> shown (save a t d h) l'.
Proof.
  intros F E R ->. unfold save. apply shown_set; [exact F|split; [reflexivity|exact R]|eapply at_lt; eauto].
Qed.
Lemma shown_new h l t d s : shown h l -> rep d s -> shown (h ++ [Some (mkEb t d)]) (l ++ [Some (t, s)]).
Proof. intros F R. apply Forall2_app; [exact F|]. constructor; [split; [reflexivity|exact R]|constructor]. Qed.

Lemma rep_iter (d : ddv V) l : rep d l -> ddv_iter d = Ok l.
Proof. intros R. destruct (rep_shows _ _ R) as (_ & _ & _ & H & _). exact H. Qed.
Lemma rep_slice (d : ddv V) m1 m m2 : rep d (m1 ++ m ++ m2) -> slice d (length m1) (length m) = Ok m.
Proof.
  intros R. unfold slice. rewrite (rep_iter _ _ R). cbn [bind]. rewrite !app_length.
  replace (length m1 + length m <=? length m1 + (length m + length m2)) with true by lia.
  now rewrite skipn_app_exact, firstn_app_exact.
Qed.
Lemma rep_end (d : ddv V) l : rep d l -> length (vec d) - off d = length l.
Proof. intros (j & E & O). rewrite E, O, app_length. lia. Qed.
Lemma rep_insert (d : ddv V) l r vs : rep d (l ++ r) -> exists d', ddv_insert_range d (length l) vs = Ok d' /\ rep d' (l ++ vs ++ r).
Proof.
  intros R. destruct (step_rep vdef d (l ++ r) (DInsertRange (length l) vs) R) as (d' & E & R'); [cbn [allowed]; rewrite app_length; lia|].
  exists d'. split; [exact E|]. cbn [DdvProps.vstep] in R'. now rewrite firstn_app_exact, skipn_app_exact in R'.
Qed.
Lemma rep_append (d : ddv V) l vs : rep d l -> exists d', ddv_insert_range d (length (vec d) - off d) vs = Ok d' /\ rep d' (l ++ vs).
Proof.
  intros R. rewrite (rep_end _ _ R). destruct (rep_insert d l [] vs) as (d' & E & R'); [now rewrite app_nil_r|].
  exists d'. rewrite app_nil_r in R'. auto.
Qed.
Lemma rep_compact (d : ddv V) l : rep d l -> rep (ddv_compact d) l.
Proof. intros R. destruct (step_rep vdef d l DCompact R I) as (d' & E & R'). injection E as <-. exact R'. Qed.
Lemma rep_put (d : ddv V) l x r v : rep d (l ++ x :: r) -> exists d', ddv_put d (length l) v = Ok d' /\ rep d' (l ++ v :: r).
Proof.
  intros R. destruct (step_rep vdef d _ (DPut (length l) v) R) as (d' & E & R'); [cbn [allowed]; rewrite app_length; cbn; lia|].
  exists d'. split; [exact E|]. cbn [DdvProps.vstep] in R'. rewrite firstn_app_exact in R'.
  replace (skipn (S (length l)) (l ++ x :: r)) with r in R'; [exact R'|]. rewrite skipn_app. rewrite skipn_all2 by lia.
  replace (S (length l) - length l) with 1 by lia. reflexivity.
Qed.
Lemma rep_get (d : ddv V) l x r : rep d (l ++ x :: r) -> ddv_get d (length l) = Ok x.
Proof.
  intros R. destruct (rep_shows _ _ R) as (_ & H & _). rewrite H. rewrite nth_error_app2 by lia. now rewrite Nat.sub_diag.
Qed.
Lemma rep_put_all vs : forall (d : ddv V) l x r, length x = length vs -> rep d (l ++ x ++ r) ->
  exists d', put_all d (length l) vs = Ok d' /\ rep d' (l ++ vs ++ r).
Proof.
  induction vs as [|v vs IH]; intros d l [|y x] r L R; try discriminate; cbn [put_all app].
  - exists d. auto.
  - cbn [app] in R. destruct (rep_put d l y (x ++ r) v R) as (d1 & E & R1). rewrite E. cbn [bind].
    replace (S (length l)) with (length (l ++ [v])) by (rewrite app_length; cbn; lia).
    destruct (IH d1 (l ++ [v]) x r) as (d2 & E2 & R2); [cbn in L; lia|now rewrite <- app_assoc|].
    exists d2. split; [exact E2|]. now rewrite <- app_assoc in R2.
Qed.
Lemma rep_swap l : forall m (a b : ddv V) l1 l2 m1 m2, length l = length m -> rep a (l1 ++ l ++ l2) -> rep b (m1 ++ m ++ m2) ->
  exists a' b', swap_loop (length l) (length l1) (length m1) a b = Ok (a', b') /\ rep a' (l1 ++ m ++ l2) /\ rep b' (m1 ++ l ++ m2).
Proof.
  induction l as [|x l IH]; intros [|y m] a b l1 l2 m1 m2 L Ra Rb; try discriminate; cbn [length swap_loop app] in *.
  - exists a, b. auto.
  - rewrite (rep_get _ _ _ _ Ra), (rep_get _ _ _ _ Rb). cbn [bind].
    destruct (rep_put a l1 x (l ++ l2) y Ra) as (a1 & Ea & Ra1). destruct (rep_put b m1 y (m ++ m2) x Rb) as (b1 & Eb & Rb1).
    rewrite Ea, Eb. cbn [bind].
    replace (S (length l1)) with (length (l1 ++ [y])) by (rewrite app_length; cbn; lia).
    replace (S (length m1)) with (length (m1 ++ [x])) by (rewrite app_length; cbn; lia).
    destruct (IH m a1 b1 (l1 ++ [y]) l2 (m1 ++ [x]) m2) as (a2 & b2 & E & R1 & R2); [lia|now rewrite <- app_assoc|now rewrite <- app_assoc|].
    exists a2, b2. split; [exact E|]. now rewrite <- app_assoc in R1, R2.
Qed.

Lemma load_eq (h : @heap V) a b : nth_error h a = Some (Some b) -> load a h = Ok b.
Proof. unfold load. now intros ->. Qed.
Lemma find_ok t : registered t = true -> find_func registered t = Ok tt.
Proof. unfold find_func. now intros ->. Qed.
Lemma find_bad t : registered t = false -> find_func registered t = Throw E_general.
Proof. unfold find_func. now intros ->. Qed.
Lemma cast_same t (d : ddv V) : cast t (mkEb t d) = Ok d.
Proof. unfold cast. cbn [btype]. now rewrite Nat.eqb_refl. Qed.

Lemma same_self a t s (h : @lheap V) : at_ a t s h -> firstn a h ++ Some (t, s) :: skipn (S a) h = h.
Proof.
  unfold at_. revert a. induction h as [|x h IH]; intros [|a] E; cbn in *; try discriminate; [now injection E as ->|].
  f_equal. now apply IH.
Qed.
Lemma list_eq_lemma (veqb : V -> V -> bool) : (forall x y, veqb x y = true <-> x = y) -> forall l m,
  (length l =? length m) && forallb (fun '(x, y) => veqb x y) (combine l m) = true <-> l = m.
Proof.
  intros HE. induction l as [|x l IH]; intros [|y m]; cbn; try (split; congruence).
  specialize (IH m). rewrite andb_true_iff in IH |- *. rewrite andb_true_iff, HE. split.
  - intros (L & -> & G). f_equal. apply IH. auto.
  - intros E. injection E as -> ->. destruct (proj2 IH eq_refl). auto.
Qed.
Ltac open_at F H := let d := fresh "d" in let E := fresh "E" in let R := fresh "R" in
  destruct (shown_at _ _ _ _ _ F H) as (d & E & R); apply load_eq in E.
Ltac reg := rewrite ?find_ok by assumption; cbn [bind btype bstore].
Ltac fin F H R := eexists; split; [reflexivity|]; eapply shown_save; [exact F|exact H|exact R|assumption].

Lemma step_lemma h l o r : shown h l -> does l o r ->
  match r with inl l' => exists h', bstep h o = Ok h' /\ shown h' l' | inr e => bstep h o = Throw e end.
Proof.
  intros F D. destruct D; cbn [BlkModel.bstep]; unfold via, typed, from.
  - reg. eexists. split; [reflexivity|]. apply shown_new; [exact F|]. exists []. auto.
  - eexists. split; [reflexivity|]. apply shown_new; [exact F|]. exists []. auto.
  - eexists. split; [reflexivity|]. apply shown_new; [exact F|]. exists []. auto.
  - now rewrite find_bad.
  - open_at F H. rewrite E. cbn [bind btype bstore]. reg. rewrite H1. eexists. split; [reflexivity|]. now apply shown_new.
  - open_at F H. rewrite E. cbn [bind btype]. reg. now rewrite H1.
  - open_at F H. rewrite E. cbn [bind btype]. reg. eexists. split; [reflexivity|]. apply shown_set; [exact F|exact I|eapply at_lt; eauto].
  - open_at F H. rewrite E. cbn [bind btype bstore]. reg.
    destruct (step_rep vdef d l (DResize n) R I) as (d' & E' & R'). cbn [ddv_step] in E'. injection E' as E'. rewrite E'. fin F H R'.
  - open_at F H. rewrite E. cbn [bind btype bstore]. reg.
    destruct (step_rep vdef d _ (DErase (length l)) R) as (d' & E' & R'); [cbn [allowed]; rewrite app_length; cbn; lia|].
    cbn [ddv_step] in E'. rewrite E'. cbn [bind]. cbn [DdvProps.vstep] in R'. rewrite firstn_app_exact in R'.
    replace (skipn (S (length l)) (l ++ x :: r)) with r in R'.
    2: { rewrite skipn_app. rewrite skipn_all2 by lia. replace (S (length l) - length l) with 1 by lia. reflexivity. }
    fin F H R'.
  - open_at F H. rewrite E. cbn [bind btype bstore]. reg.
    destruct (step_rep vdef d _ (DEraseRange (length l) (length l + length x)) R) as (d' & E' & R'); [cbn [allowed]; rewrite !app_length; lia|].
    cbn [ddv_step] in E'. rewrite E'. cbn [bind]. cbn [DdvProps.vstep] in R'. rewrite firstn_app_exact in R'.
    rewrite app_assoc, <- app_length, skipn_app_exact in R'. fin F H R'.
  - open_at F H0. open_at F H1. rewrite E, E0. cbn [bind btype bstore]. reg. rewrite cast_same. cbn [bind].
    destruct (Nat.eqb_spec a b); [contradiction|]. rewrite (rep_iter _ _ R0). cbn [bind].
    destruct (rep_append d l m R) as (d' & E' & R'). rewrite E'. cbn [bind]. fin F H0 R'.
  - open_at F H0. open_at F H1. rewrite E, E0. cbn [bind btype bstore]. reg. rewrite cast_same. cbn [bind].
    destruct (Nat.eqb_spec a b); [contradiction|]. rewrite (rep_slice _ _ _ _ R0). cbn [bind].
    destruct (rep_append _ l m (rep_compact _ _ R)) as (d' & E' & R'). rewrite E'. cbn [bind]. fin F H0 R'.
  - open_at F H0. open_at F H1. rewrite E, E0. cbn [bind btype bstore]. reg. rewrite cast_same. cbn [bind].
    destruct (Nat.eqb_spec a b); [contradiction|]. rewrite (rep_slice _ _ _ _ R0). cbn [bind].
    destruct (step_rep vdef d l (DAssign m) R I) as (d' & E' & R'). cbn [ddv_step] in E'. injection E' as E'. rewrite E'. fin F H0 R'.
  - open_at F H0. open_at F H1. rewrite E, E0. cbn [bind btype bstore]. reg. rewrite cast_same. cbn [bind].
    destruct (Nat.eqb_spec a b); [contradiction|]. rewrite (rep_slice _ _ _ _ R0). cbn [bind].
    destruct (rep_insert _ [] l m (rep_compact _ _ R)) as (d' & E' & R'). cbn [length] in E'. rewrite E'. cbn [bind]. fin F H0 R'.
  - open_at F H1. open_at F H2. rewrite E, E0. cbn [bind btype bstore]. reg. rewrite cast_same. cbn [bind].
    destruct (Nat.eqb_spec a b); [contradiction|]. destruct (rep_swap l m d d0 l1 l2 m1 m2 H0 R R0) as (a' & b' & E' & R1 & R2).
    rewrite E'. cbn [bind]. eexists. split; [reflexivity|].
    assert (shown (save a t a' h) h1) as F1 by (eapply shown_save; [exact F|exact H1|exact R1|assumption]).
    eapply shown_save; [exact F1|eapply at_other; eassumption|exact R2|eassumption].
  - open_at F H. rewrite E. cbn [bind btype bstore]. reg. eexists. split; [reflexivity|].
    eapply shown_save; [exact F|exact H|exact R|]. unfold with_seq. symmetry. now apply same_self.
  - open_at F H. rewrite E. cbn [bind btype bstore]. reg. eexists. split; [reflexivity|].
    eapply shown_save; [exact F|exact H|exact (rep_compact _ _ R)|]. unfold with_seq. symmetry. now apply same_self.
  - open_at F H. rewrite E. cbn [bind]. rewrite cast_same. cbn [bind]. destruct (rep_put _ _ _ _ v R) as (d' & E' & R').
    rewrite E'. cbn [bind]. fin F H R'.
  - open_at F H. rewrite E. cbn [bind]. rewrite cast_same. cbn [bind].
    destruct (step_rep vdef d l (DPush v) R I) as (d' & E' & R'). cbn [ddv_step] in E'. injection E' as E'. rewrite E'. fin F H R'.
  - open_at F H. rewrite E. cbn [bind]. rewrite cast_same. cbn [bind].
    destruct (step_rep vdef d l (DInsert 0 v) R) as (d' & E' & R'); [cbn [allowed]; lia|]. cbn [ddv_step] in E'. rewrite E'. cbn [bind]. fin F H R'.
  - open_at F H0. rewrite E. cbn [bind]. rewrite cast_same. cbn [bind].
    destruct (rep_put_all vs d l x r H R) as (d' & E' & R'). rewrite E'. cbn [bind]. fin F H0 R'.
  - open_at F H. rewrite E. cbn [bind]. rewrite cast_same. cbn [bind].
    destruct (rep_append d l vs R) as (d' & E' & R'). rewrite E'. cbn [bind]. fin F H R'.
  - open_at F H. rewrite E. cbn [bind]. rewrite cast_same. cbn [bind].
    destruct (rep_insert d [] l vs R) as (d' & E' & R'). cbn [length] in E'. rewrite E'. cbn [bind]. fin F H R'.
  - open_at F H. rewrite E. cbn [bind]. rewrite cast_same. cbn [bind].
    destruct (step_rep vdef d l (DAssign vs) R I) as (d' & E' & R'). cbn [ddv_step] in E'. injection E' as E'. rewrite E'. fin F H R'.
  - open_at F H. rewrite E. cbn [bind]. rewrite cast_same. cbn [bind].
    destruct (rep_insert d l r vs R) as (d' & E' & R'). rewrite E'. cbn [bind]. fin F H R'.
  - open_at F H. destruct H1 as [[<-|[<-|[<-|[]]]]|[(n & ->)|[(i & ->)|[(i & n & ->)|(i & n & ->)]]]]; cbn [BlkModel.bstep]; unfold via;
      rewrite E; cbn [bind btype]; now rewrite find_bad.
Qed.

Lemma run_lemma l ops l' : history vdef registered copyable l ops l' -> forall h, shown h l -> exists h', brun vdef registered copyable h ops = Ok h' /\ shown h' l'.
Proof.
  induction 1 as [l|l o l1 r l2 D H IH]; intros h F; cbn [brun].
  - eauto.
  - destruct (step_lemma _ _ _ _ F D) as (h1 & E & F1). rewrite E. cbn [bind]. auto.
Qed.
Lemma run_app ops h h' o : brun vdef registered copyable h ops = Ok h' -> brun vdef registered copyable h (ops ++ [o]) = bstep h' o.
Proof.
  revert h. induction ops as [|x ops IH]; intros h E; cbn [brun app] in *.
  - injection E as ->. now destruct (bstep h' o).
  - destruct (bstep h x); cbn [bind] in *; try discriminate. auto.
Qed.
End L.

(** * Theorems *)
(** What the queries of a block report, when it holds [l]. *)
Definition reports {V} (registered : nat -> bool) (h : @heap V) (a t : nat) (l : list V) : Prop :=
  (registered t = true -> (Z.of_nat (length l) < 2 ^ 64)%Z -> bsize registered a h = Ok (Z.of_nat (length l))) /\
  (forall i x, nth_error l i = Some x -> bget t a i h = Ok x) /\
  (forall i, bat_ t a i h = match nth_error l i with Some x => Ok x | None => Throw E_out_of_range end) /\
  biter t a h = Ok l /\ briter t a h = Ok (rev l).

(** C84: after any history of calls on blocks that std::vector accepts, every live block
    reports the elements, size and type of the std::vector kept beside it, and two blocks
    compare equal when the types and the elements agree. *)
Theorem C84_blocks : forall (V : Type) (vdef : V) (veqb : V -> V -> bool) registered copyable ops l,
  (forall x y, veqb x y = true <-> x = y) -> history vdef registered copyable [] ops l ->
  exists h, brun vdef registered copyable [] ops = Ok h /\ length h = length l /\
    (forall a t s, at_ a t s l -> reports registered h a t s) /\
    (forall a b t u s r, at_ a t s l -> at_ b u r l -> registered t = true ->
      exists x, bequal veqb registered a b h = Ok x /\ (x = true <-> t = u /\ s = r)).
Proof.
  intros V vdef veqb reg cp ops l HE H. destruct (run_lemma _ _ _ _ _ _ H [] (Forall2_nil _)) as (h & E & F).
  exists h. split; [exact E|]. split; [exact (shown_len _ _ F)|]. split.
  - intros a t s A. destruct (shown_at _ _ _ _ _ F A) as (d & N & R). apply load_eq in N.
    unfold reports, bsize, bget, bat_, biter, briter. rewrite N. cbn [bind btype bstore]. rewrite cast_same. cbn [bind].
    destruct (rep_shows _ _ R) as (S1 & S2 & S3 & S4 & S5).
    split; [intros Ht L; rewrite find_ok by exact Ht; cbn [bind]; now rewrite S1|].
    split; [intros i x Hx; rewrite S2, Hx; reflexivity|]. auto.
  - intros a b t u s r A B Ht. destruct (shown_at _ _ _ _ _ F A) as (d & N & R). destruct (shown_at _ _ _ _ _ F B) as (d' & N' & R').
    apply load_eq in N, N'. unfold bequal. rewrite N, N'. cbn [bind btype bstore].
    destruct (Nat.eqb_spec t u) as [->|NE]; cbn [negb].
    + rewrite find_ok by exact Ht. cbn [bind]. unfold ddv_eqb. rewrite (rep_iter _ _ R), (rep_iter _ _ R'). cbn [bind].
      eexists. split; [reflexivity|]. rewrite (list_eq_lemma veqb HE). intuition.
    + exists false. split; [reflexivity|]. split; [discriminate|]. now intros [].
Qed.
Definition ex_hist : list (@bop nat) :=
  [BCreateValues 7 [1; 2; 3]; BCreateValue 7 2 9; BErase 0 0; BAppend 7 0 4; BAppendFrom 1 0 1 2; BEraseN 1 0 1;
   BPrependFrom 0 1 0 2; BSwap 0 1 1 1 2; BCopy 0; BSetValues 7 2 0 [6; 6]; BInsertValues 7 1 1 [5]; BDelete 0; BShrink 1; BResize 1 6].
Example C84_blocks_ex : history 0 (fun t => t =? 7) (fun _ => true) [] ex_hist
  [None; Some (7, [9; 5; 3; 2; 0; 0]); Some (7, [6; 6; 4; 3; 4])].
Proof.
  unfold ex_hist.
  eapply history_cons; [apply does_values|]. eapply history_cons; [apply does_value|].
  eapply history_cons; [eapply (does_erase _ _ _ _ _ 0 7 [] 1 [2; 3]); reflexivity|].
  eapply history_cons; [eapply (does_append _ _ _ _ _ 0 7 [2; 3] 4); reflexivity|].
  eapply history_cons; [eapply (does_append_from _ _ _ _ _ 1 0 7 [9; 9] [2] [3; 4] []); [lia|reflexivity..]|].
  eapply history_cons; [eapply (does_erase_n _ _ _ _ _ 1 7 [] [9] [9; 3; 4]); reflexivity|].
  eapply history_cons; [eapply (does_prepend_from _ _ _ _ _ 0 1 7 [2; 3; 4] [] [9; 3] [4]); [lia|reflexivity..]|].
  eapply history_cons; [eapply (does_swap _ _ _ _ _ _ 0 1 7 [9] [3; 2] [3; 4] [9] [3; 4] []); [lia|reflexivity..]|].
  eapply history_cons; [eapply (does_copy _ _ _ _ 0 7); reflexivity|].
  eapply history_cons; [eapply (does_set_values _ _ _ _ _ 2 7 [] [9; 3] [4; 3; 4]); reflexivity|].
  eapply history_cons; [eapply (does_insert_values _ _ _ _ _ 1 7 [9] [3; 2]); reflexivity|].
  eapply history_cons; [eapply (does_delete _ _ _ _ 0 7); reflexivity|].
  eapply history_cons; [eapply (does_shrink _ _ _ _ 1 7); reflexivity|].
  eapply history_cons; [eapply (does_resize _ _ _ _ _ 1 7); reflexivity|].
  apply history_nil.
Qed.
Example C84_blocks_ex_model : brun 0 (fun t => t =? 7) (fun _ => true) [] (firstn 6 ex_hist) =
  Ok [Some (mkEb 7 (mkDdv [1; 2; 3; 4] 1)); Some (mkEb 7 (mkDdv [9; 3; 4] 0))].
Proof. reflexivity. Qed.

(** C84: after such a history, a call on a block of a type that was not registered throws
    general_error, and copying a block that cannot be copied throws element_block_error. *)
Theorem C84_exceptions : forall (V : Type) (vdef : V) registered copyable ops l o e,
  history vdef registered copyable [] ops l -> does vdef registered copyable l o (inr e) ->
  brun vdef registered copyable [] (ops ++ [o]) = Throw e.
Proof.
  intros V vdef reg cp ops l o e H D. destruct (run_lemma _ _ _ _ _ _ H [] (Forall2_nil _)) as (h & E & F).
  rewrite (run_app _ _ _ _ _ _ _ E). exact (step_lemma _ _ _ _ _ _ _ F D).
Qed.
Example C84_exceptions_ex : history 0 (fun t => t =? 7) (fun _ => false) [] [BCreateValues 7 [1; 2]; BCreateValue 8 2 9]
    [Some (7, [1; 2]); Some (8, [9; 9])] /\
  does 0 (fun t => t =? 7) (fun _ => false) [Some (7, [1; 2]); Some (8, [9; 9])] (BCopy 0) (inr E_element_block) /\
  does 0 (fun t => t =? 7) (fun _ => false) [Some (7, [1; 2]); Some (8, [9; 9])] (BEraseN 1 0 2) (inr E_general).
Proof.
  split; [|split].
  - eapply history_cons; [apply does_values|]. eapply history_cons; [apply does_value|]. apply history_nil.
  - eapply does_copy_not; reflexivity.
  - apply (does_unknown _ _ _ _ 1 8 [9; 9]); [reflexivity|reflexivity|]. right. right. right. left. eauto.
Qed.

(** Block [a] of the heap stands for the block [e] of the model of multi_type_vector. *)
Definition stands_for {V} (h : @heap V) (a : nat) (e : @eblk V) : Prop :=
  exists d, nth_error h a = Some (Some (mkEb (ecat e) d)) /\ rep d (ev e).
(** The call on block [a] (with source block [b], standing for [src]) that a function on the
    blocks of MtvModel.v is the model of *)
Inductive models {V} (cat : V -> nat) (a b : nat) (e src : @eblk V) : (eblk -> res eblk) -> @bop V -> Prop :=
| m_append v : models cat a b e src (e_append cat [v]) (BAppend (ecat e) a v)
| m_appends vs : models cat a b e src (e_append cat vs) (BAppendValues (ecat e) a vs)
| m_prepend v : models cat a b e src (e_prepend cat [v]) (BPrepend (ecat e) a v)
| m_prepends vs : models cat a b e src (e_prepend cat vs) (BPrependValues (ecat e) a vs)
| m_assign vs : models cat a b e src (e_assign cat vs) (BAssignValues (ecat e) a vs)
| m_insert i vs : models cat a b e src (e_insert cat i vs) (BInsertValues (ecat e) a i vs)
| m_set i v : models cat a b e src (e_set cat i [v]) (BSet (ecat e) a i v)
| m_sets i vs : models cat a b e src (e_set cat i vs) (BSetValues (ecat e) a i vs)
| m_erase i : models cat a b e src (e_erase i 1) (BErase a i)
| m_erases i n : models cat a b e src (e_erase i n) (BEraseN a i n)
| m_resize n : models cat a b e src (e_resize n) (BResize a n)
| m_append_block : models cat a b e src (e_append_block src) (BAppendBlock a b)
| m_append_from i n : models cat a b e src (e_append_from src i n) (BAppendFrom a b i n)
| m_assign_from i n : models cat a b e src (e_assign_from src i n) (BAssignFrom a b i n)
| m_prepend_from i n : models cat a b e src (e_prepend_from src i n) (BPrependFrom a b i n).

Lemma cut3 {V} (l : list V) i n : i + n <= length l ->
  exists x y z, l = x ++ y ++ z /\ length x = i /\ length y = n /\ firstn i l = x /\ skipn (i + n) l = z.
Proof.
  intros H. exists (firstn i l), (firstn n (skipn i l)), (skipn (i + n) l). repeat split.
  - rewrite <- (firstn_skipn i l) at 1. f_equal. rewrite <- (firstn_skipn n (skipn i l)) at 1. f_equal.
    clear H. revert l. induction i as [|i IH]; intros l; [reflexivity|]. destruct l; [now rewrite !skipn_nil|]. apply IH.
  - rewrite firstn_length. lia.
  - rewrite firstn_length, skipn_length. lia.
Qed.
Lemma save_stands {V} (h : @heap V) a e l d : stands_for h a e -> rep d l ->
  stands_for (save a (ecat e) d h) a (with_ev e l) /\ forall c, c <> a -> nth_error (save a (ecat e) d h) c = nth_error h c.
Proof.
  intros (d0 & E & _) R. unfold save. split.
  - exists d. split; [|exact R]. cbn [ecat with_ev]. assert (a < length h) by (apply nth_error_Some; congruence). clear E R d0.
    revert a H. induction h as [|x h IH]; intros [|a] H; cbn in *; try lia; [reflexivity|]. apply IH. lia.
  - intros c N. clear -N. revert a c N. induction h as [|x h IH]; intros [|a] [|c] N; cbn; try reflexivity; [lia|]. apply IH. lia.
Qed.
Section M.
Context {V : Type}.
Variables (vdef : V) (registered copyable : nat -> bool).
Notation bstep := (bstep vdef registered copyable).

Lemma typed_lemma (h : @heap V) a e f l : stands_for h a e -> (forall d, rep d (ev e) -> exists d', f d = Ok d' /\ rep d' l) ->
  exists h', typed (ecat e) a f h = Ok h' /\ stands_for h' a (with_ev e l) /\ forall c, c <> a -> nth_error h' c = nth_error h c.
Proof.
  intros H F. pose proof H as (d & E & R). unfold typed. rewrite (load_eq _ _ _ E). cbn [bind]. rewrite cast_same. cbn [bind].
  destruct (F d R) as (d' & -> & R'). cbn [bind]. eexists. split; [reflexivity|]. now apply save_stands.
Qed.
Lemma via_lemma (h : @heap V) a e f l : registered (ecat e) = true -> stands_for h a e -> (forall d, rep d (ev e) -> exists d', f d = Ok d' /\ rep d' l) ->
  exists h', via registered a f h = Ok h' /\ stands_for h' a (with_ev e l) /\ forall c, c <> a -> nth_error h' c = nth_error h c.
Proof.
  intros G H F. pose proof H as (d & E & R). unfold via. rewrite (load_eq _ _ _ E). cbn [bind btype bstore]. rewrite find_ok by exact G. cbn [bind].
  destruct (F d R) as (d' & -> & R'). cbn [bind]. eexists. split; [reflexivity|]. now apply save_stands.
Qed.
Lemma from_lemma (h : @heap V) a b e src f l : registered (ecat e) = true -> a <> b -> ecat src = ecat e -> stands_for h a e -> stands_for h b src ->
  (forall d s, rep d (ev e) -> rep s (ev src) -> exists d', f d s = Ok d' /\ rep d' l) ->
  exists h', from registered a b f h = Ok h' /\ stands_for h' a (with_ev e l) /\ forall c, c <> a -> nth_error h' c = nth_error h c.
Proof.
  intros G N C H (s & Eb & Rs) F. pose proof H as (d & E & R). unfold from. rewrite (load_eq _ _ _ E), (load_eq _ _ _ Eb).
  cbn [bind btype bstore]. rewrite find_ok by exact G. cbn [bind]. rewrite C, cast_same. cbn [bind].
  destruct (Nat.eqb_spec a b); [contradiction|]. destruct (F d s R Rs) as (d' & -> & R'). cbn [bind]. eexists. split; [reflexivity|].
  now apply save_stands.
Qed.
Lemma slice_lemma (src : @eblk V) i n l s : e_slice i n src = Ok l -> rep s (ev src) -> slice s i n = Ok l.
Proof. intros E R. unfold slice. rewrite (rep_iter _ _ R). cbn [bind]. exact E. Qed.

Lemma models_lemma (cat : V -> nat) (h : @heap V) a b e src f o e' : models cat a b e src f o ->
  registered (ecat e) = true -> a <> b -> stands_for h a e -> stands_for h b src -> f e = Ok e' ->
  exists h', bstep h o = Ok h' /\ stands_for h' a e' /\ forall c, c <> a -> nth_error h' c = nth_error h c.
Proof.
  intros M G N Ha Hb E. destruct M; cbn [BlkModel.bstep].
  - unfold e_append in E. destruct (all_cat cat (ecat e) [v]); [|discriminate]. injection E as <-. apply typed_lemma; [exact Ha|].
    intros d R. exact (step_rep vdef d _ (DPush v) R I).
  - unfold e_append in E. destruct (all_cat cat (ecat e) vs); [|discriminate]. injection E as <-. apply typed_lemma; [exact Ha|].
    intros d R. now apply (rep_append vdef).
  - unfold e_prepend in E. destruct (all_cat cat (ecat e) [v]); [|discriminate]. injection E as <-. apply typed_lemma; [exact Ha|].
    intros d R. apply (step_rep vdef d _ (DInsert 0 v) R). cbn [allowed]. lia.
  - unfold e_prepend in E. destruct (all_cat cat (ecat e) vs); [|discriminate]. injection E as <-. apply typed_lemma; [exact Ha|].
    intros d R. exact (rep_insert vdef d [] (ev e) vs R).
  - unfold e_assign in E. destruct (all_cat cat (ecat e) vs); [|discriminate]. injection E as <-. apply typed_lemma; [exact Ha|].
    intros d R. exact (step_rep vdef d _ (DAssign vs) R I).
  - unfold e_insert in E. destruct (all_cat cat (ecat e) vs && (i <=? length (ev e))) eqn:B; [|discriminate].
    injection E as <-. apply typed_lemma; [exact Ha|]. intros d R.
    destruct (step_rep vdef d _ (DInsertRange i vs) R) as (d' & E' & R'); [cbn [allowed]; lia|]. exists d'. split; [exact E'|exact R'].
  - unfold e_set in E. destruct (all_cat cat (ecat e) [v] && (i + length [v] <=? length (ev e))) eqn:B; [|discriminate].
    injection E as <-. apply typed_lemma; [exact Ha|]. intros d R. cbn [length] in *. rewrite Nat.add_1_r in *.
    destruct (step_rep vdef d _ (DPut i v) R) as (d' & E' & R'); [cbn [allowed]; lia|]. exists d'. split; [exact E'|exact R'].
  - unfold e_set in E. destruct (all_cat cat (ecat e) vs && (i + length vs <=? length (ev e))) eqn:B; [|discriminate].
    injection E as <-. apply typed_lemma; [exact Ha|]. intros d R. destruct (cut3 (ev e) i (length vs)) as (x & y & z & Q & Lx & Ly & -> & ->); [lia|].
    rewrite Q in R. rewrite <- Lx. now apply (rep_put_all vdef vs d x y z).
  - unfold e_erase in E. destruct (i + 1 <=? length (ev e)) eqn:B; [|discriminate]. injection E as <-. apply via_lemma; [exact G|exact Ha|].
    intros d R. rewrite Nat.add_1_r. apply (step_rep vdef d _ (DErase i) R). cbn [allowed]. lia.
  - unfold e_erase in E. destruct (i + n <=? length (ev e)) eqn:B; [|discriminate]. injection E as <-. apply via_lemma; [exact G|exact Ha|].
    intros d R. apply (step_rep vdef d _ (DEraseRange i (i + n)) R). cbn [allowed]. lia.
  - unfold e_resize in E. destruct (n <=? length (ev e)) eqn:B; [|discriminate]. injection E as <-. apply via_lemma; [exact G|exact Ha|].
    intros d R. destruct (step_rep vdef d _ (DResize n) R I) as (d' & E' & R'). exists d'. split; [exact E'|]. cbn [DdvProps.vstep] in R'.
    replace (n - length (ev e)) with 0 in R' by lia. cbn [repeat] in R'. now rewrite app_nil_r in R'.
  - unfold e_append_block in E. destruct (Nat.eqb_spec (ecat src) (ecat e)); [|discriminate]. injection E as <-.
    apply from_lemma with (src := src); try assumption. intros d s R Rs. rewrite (rep_iter _ _ Rs). cbn [bind]. now apply (rep_append vdef).
  - unfold e_append_from in E. destruct (Nat.eqb_spec (ecat src) (ecat e)); [|discriminate].
    destruct (e_slice i n src) as [l| |] eqn:Q; cbn [bind] in E; try discriminate. injection E as <-.
    apply from_lemma with (src := src); try assumption. intros d s R Rs. rewrite (slice_lemma _ _ _ _ _ Q Rs). cbn [bind].
    apply (rep_append vdef). now apply (rep_compact vdef).
  - unfold e_assign_from in E. destruct (Nat.eqb_spec (ecat src) (ecat e)); [|discriminate].
    destruct (e_slice i n src) as [l| |] eqn:Q; cbn [bind] in E; try discriminate. injection E as <-.
    apply from_lemma with (src := src); try assumption. intros d s R Rs. rewrite (slice_lemma _ _ _ _ _ Q Rs). cbn [bind].
    exact (step_rep vdef d _ (DAssign l) R I).
  - unfold e_prepend_from in E. destruct (Nat.eqb_spec (ecat src) (ecat e)); [|discriminate].
    destruct (e_slice i n src) as [l| |] eqn:Q; cbn [bind] in E; try discriminate. injection E as <-.
    apply from_lemma with (src := src); try assumption. intros d s R Rs. rewrite (slice_lemma _ _ _ _ _ Q Rs). cbn [bind].
    apply (rep_insert vdef _ [] (ev e) l). now apply (rep_compact vdef).
Qed.
End M.

(** C84: wherever the model of multi_type_vector updates a block as a list, the call on the
    block that the list stands for succeeds, leaves the list of the model, keeps the type, and
    touches no other block. *)
Theorem C84_vector_model : forall (V : Type) (vdef : V) registered copyable (cat : V -> nat) h a b e src f o e',
  models cat a b e src f o -> registered (ecat e) = true -> a <> b -> stands_for h a e -> stands_for h b src ->
  f e = Ok e' ->
  exists h', bstep vdef registered copyable h o = Ok h' /\ stands_for h' a e' /\
    forall c, c <> a -> nth_error h' c = nth_error h c.
Proof. exact @models_lemma. Qed.
Definition ex_heap : @heap nat := [Some (mkEb 1 (mkDdv [9; 1; 2] 1)); Some (mkEb 1 (mkDdv [3; 4; 5] 0))].
Definition ex_dst : @eblk nat := EB (0, 0) 1 [1; 2].
Definition ex_src : @eblk nat := EB (0, 1) 1 [3; 4; 5].
Example C84_vector_model_ex : stands_for ex_heap 0 ex_dst /\ stands_for ex_heap 1 ex_src /\
  e_prepend_from ex_src 1 2 ex_dst = Ok (EB (0, 0) 1 [4; 5; 1; 2]).
Proof.
  split; [|split]; [eexists; split; [reflexivity|exists [9]; auto]|eexists; split; [reflexivity|exists []; auto]|reflexivity].
Qed.

(** C84: the same for the exchange of elements between two blocks, which the model of the
    range swap writes as two slices stored crosswise. *)
Theorem C84_swap_model : forall (V : Type) (vdef : V) registered copyable (cat : V -> nat) h a b (e o e' o' : @eblk V) i j n l m,
  registered (ecat e) = true -> a <> b -> ecat o = ecat e -> stands_for h a e -> stands_for h b o ->
  e_slice i n e = Ok l -> e_slice j n o = Ok m -> e_set cat i m e = Ok e' -> e_set cat j l o = Ok o' ->
  exists h', bstep vdef registered copyable h (BSwap a b i j n) = Ok h' /\ stands_for h' a e' /\ stands_for h' b o' /\
    forall c, c <> a -> c <> b -> nth_error h' c = nth_error h c.
Proof.
  intros V vdef reg cp cat h a b e o e' o' i j n l m G N C Ha Hb El Em Se So.
  unfold e_slice in El, Em. destruct (i + n <=? length (ev e)) eqn:Bi; [|discriminate]. destruct (j + n <=? length (ev o)) eqn:Bj; [|discriminate].
  injection El as <-. injection Em as <-. unfold e_set in Se, So.
  match type of Se with (if ?c then _ else _) = _ => destruct c; [|discriminate] end.
  match type of So with (if ?c then _ else _) = _ => destruct c; [|discriminate] end.
  injection Se as <-. injection So as <-. rewrite !firstn_length, !skipn_length.
  replace (Nat.min n (length (ev e) - i)) with n by lia. replace (Nat.min n (length (ev o) - j)) with n by lia.
  destruct (cut3 (ev e) i n) as (x & y & z & Q & Lx & Ly & -> & ->); [lia|]. destruct (cut3 (ev o) j n) as (x' & y' & z' & Q' & Lx' & Ly' & -> & ->); [lia|].
  assert (firstn n (skipn i (ev e)) = y) as -> by (rewrite Q, <- Lx, skipn_app_exact, <- Ly; apply firstn_app_exact).
  assert (firstn n (skipn j (ev o)) = y') as -> by (rewrite Q', <- Lx', skipn_app_exact, <- Ly'; apply firstn_app_exact).
  pose proof Ha as (d & E & R). pose proof Hb as (s & E' & R'). cbn [bstep]. rewrite (load_eq _ _ _ E), (load_eq _ _ _ E'). cbn [bind btype bstore].
  rewrite find_ok by exact G. cbn [bind]. rewrite C, cast_same. cbn [bind]. destruct (Nat.eqb_spec a b); [contradiction|].
  rewrite Q in R. rewrite Q' in R'. destruct (rep_swap vdef y y' d s x z x' z') as (d1 & s1 & X & R1 & R2); [congruence|assumption|assumption|].
  rewrite Lx, Lx', Ly in X. rewrite X. cbn [bind]. eexists. split; [reflexivity|]. destruct (save_stands h a e (x ++ y' ++ z) d1 Ha R1) as (S1 & K1).
  assert (stands_for (save a (ecat e) d1 h) b o) as Hb1 by (exists s; split; [rewrite K1 by auto; exact E'|now rewrite Q']).
  destruct (save_stands _ b o (x' ++ y ++ z') s1 Hb1 R2) as (S2 & K2). rewrite C in S2, K2. split; [|split; [exact S2|]].
  - destruct S1 as (d2 & E2 & R2'). exists d2. split; [rewrite K2 by auto; exact E2|exact R2'].
  - intros c Na Nb. rewrite K2 by auto. now apply K1.
Qed.
Example C84_swap_model_ex : e_slice 0 2 ex_dst = Ok [1; 2] /\ e_slice 1 2 ex_src = Ok [4; 5] /\
  e_set (fun _ => 1) 0 [4; 5] ex_dst = Ok (EB (0, 0) 1 [4; 5]) /\ e_set (fun _ => 1) 1 [1; 2] ex_src = Ok (EB (0, 1) 1 [3; 1; 2]).
Proof. repeat split. Qed.

Definition BlkProps_theorems := (@C84_blocks, @C84_exceptions, @C84_vector_model, @C84_swap_model).
Print Assumptions BlkProps_theorems.
