(** Properties of the search results (C77) and of the node access (C78) of
    point_quad_tree. *)
From Coq Require Import List ZArith Lia Bool.
From Verif Require Import Base PqtModel PqtSpec PqtProofs PqtRemove PqtMain PqtProps PqtIter PqtIterSpec.
Import ListNotations.
Open Scope Z_scope.

Section H.
Context {V : Type}.
Variable dflt : V.
Notation item := (Z * Z * V)%type.
Notation sit := (@sit V).
Notation results := (@results V).

(** ** Helpers *)

Lemma push_all a b (l k : list item) : fold_left (push a) l (Some (b, k)) = Some (b, k ++ l).
Proof.
  revert k. induction l as [|x l IH]; intros k; [now rewrite app_nil_r|]. cbn [fold_left push].
  rewrite IH, <- app_assoc. reflexivity.
Qed.

Lemma search_eq a x1 y1 x2 y2 (t : qt V) :
  search a x1 y1 x2 y2 t =
  match search_region x1 y1 x2 y2 t with [] => None | l => Some (a, l) end.
Proof.
  unfold search. destruct (search_region x1 y1 x2 y2 t) as [|p l]; [reflexivity|]. cbn [fold_left push].
  rewrite push_all. reflexivity.
Qed.

(** The state of an iterator over a non-empty result. *)
Definition ok (a : nat) (l : list item) (f : bool) (it : sit) : Prop :=
  sres it = Some (a, l) /\
  exists i, spos it = Some i /\ (i < length l)%nat /\ (sat_end it = true -> S i = length l) /\
    (f = false -> nth_error l i = Some (sval it)).

Lemma begin_ok a p l : exists it, res_begin dflt (Some (a, p :: l)) = Ok it /\ ok a (p :: l) false it /\
  spos it = Some 0%nat /\ sat_end it = false.
Proof.
  eexists. split; [reflexivity|]. split; [|split; reflexivity]. split; [reflexivity|]. exists 0%nat.
  cbn. repeat split; [lia|discriminate].
Qed.
Lemma end_ok a p l : exists it, res_end dflt (Some (a, p :: l)) = Ok it /\ ok a (p :: l) true it /\
  spos it = Some (length l) /\ sat_end it = true.
Proof.
  eexists. split; [reflexivity|]. split; [|split; reflexivity]. split; [reflexivity|]. exists (length l).
  cbn. repeat split; [lia|discriminate].
Qed.

Lemma sinc_ok a l f it i : ok a l f it -> spos it = Some i ->
  exists it', sinc it = Ok it' /\ ok a l f it' /\
    if Nat.eqb (S i) (length l) then spos it' = Some i /\ sat_end it' = true /\ sval it' = sval it
    else spos it' = Some (S i) /\ sat_end it' = sat_end it /\ nth_error l (S i) = Some (sval it').
Proof.
  intros (H1 & j & H2 & H3 & H4 & H5) Hi. assert (j = i) by congruence. subst j.
  unfold sinc. rewrite H1, H2. destruct (Nat.eqb_spec (S i) (length l)) as [E|E].
  - eexists. split; [reflexivity|]. split; [|repeat split; auto]. split; [reflexivity|].
    exists i. cbn. repeat split; auto.
  - unfold update_value. cbn [sres spos sval sat_end].
    destruct (nth_error l (S i)) as [v|] eqn:Ev; [|apply nth_error_None in Ev; lia]. cbn [deref bind].
    eexists. split; [reflexivity|]. cbn [sres spos sval sat_end]. split; [|repeat split; auto].
    split; [reflexivity|]. exists (S i). cbn [sres spos sval sat_end].
    repeat split; auto; [lia|]. intros He. specialize (H4 He). lia.
Qed.

Lemma sdec_ok a l f it i : ok a l f it -> spos it = Some i ->
  if sat_end it then exists it', sdec it = Ok it' /\ ok a l f it' /\ spos it' = Some i /\ sat_end it' = false /\ sval it' = sval it
  else match i with
       | O => sdec it = Undef
       | S j => exists it', sdec it = Ok it' /\ ok a l f it' /\ spos it' = Some j /\ sat_end it' = false /\
                  nth_error l j = Some (sval it')
       end.
Proof.
  intros (H1 & j & H2 & H3 & H4 & H5) Hi. assert (j = i) by congruence. subst j. unfold sdec.
  destruct (sat_end it) eqn:Ee.
  - eexists. split; [reflexivity|]. cbn [sres spos sval sat_end]. split; [|auto].
    split; [exact H1|]. exists i. cbn [sres spos sval sat_end]. repeat split; auto; try discriminate; try lia.
  - rewrite H2. destruct i as [|j]; [reflexivity|]. unfold update_value. cbn [sres spos sval sat_end]. rewrite H1.
    destruct (nth_error l j) as [v|] eqn:Ev; [|apply nth_error_None in Ev; lia]. cbn [deref bind].
    eexists. split; [reflexivity|]. cbn [sres spos sval sat_end]. split; [|auto].
    split; [reflexivity|]. exists j. cbn [sres spos sval sat_end]. repeat split; auto; [lia|discriminate].
Qed.

Lemma ok_any a l f it : ok a l f it -> ok a l true it.
Proof. intros (H1 & i & H2 & H3 & H4 & _). split; [exact H1|]. exists i. repeat split; auto. discriminate. Qed.

Lemma made_ok a p l f it : made dflt (Some (a, p :: l)) f it -> ok a (p :: l) f it.
Proof.
  induction 1 as [it E|it E|f it it' _ IH E|f it it' _ IH E|it _ IH].
  - destruct (begin_ok a p l) as (x & Ex & K & _). congruence.
  - destruct (end_ok a p l) as (x & Ex & K & _). congruence.
  - pose proof IH as (_ & i & Hi & _). destruct (sinc_ok _ _ _ _ _ IH Hi) as (x & Ex & K & _). congruence.
  - pose proof IH as (_ & i & Hi & _). pose proof (sdec_ok _ _ _ _ _ IH Hi) as D.
    destruct (sat_end it); [destruct D as (x & Ex & K & _); congruence|].
    destruct i; [congruence|destruct D as (x & Ex & K & _); congruence].
  - eapply ok_any. exact IH.
Qed.

Lemma seqb_ok a l f g it it' i j : ok a l f it -> ok a l g it' -> spos it = Some i -> spos it' = Some j ->
  seqb it it' = true <-> i = j /\ sat_end it = sat_end it'.
Proof.
  intros (H1 & _) (K1 & _) Hi Hj. unfold seqb. rewrite H1, K1, Hi, Hj, Nat.eqb_refl. cbn [andb].
  rewrite andb_true_iff, Nat.eqb_eq, eqb_true_iff. reflexivity.
Qed.

Lemma seqb_end a p l e f it : res_end dflt (Some (a, p :: l)) = Ok e -> ok a (p :: l) f it ->
  seqb it e = sat_end it.
Proof.
  intros E H. destruct (end_ok a p l) as (x & Ex & K & P1 & P2). assert (x = e) by congruence. subst x.
  pose proof H as (_ & i & Hi & _ & He & _). apply eq_true_iff_eq. rewrite (seqb_ok a (p :: l) f true it e i (length l) H K Hi P1), P2.
  split; [tauto|]. intros Q. split; [|exact Q]. specialize (He Q). cbn [length] in He. lia.
Qed.

Lemma swalk_ok a p l e : res_end dflt (Some (a, p :: l)) = Ok e ->
  forall n it i fuel, ok a (p :: l) false it -> spos it = Some i -> sat_end it = false ->
  (length l - i = n)%nat -> (n < fuel)%nat -> swalk fuel it e = Ok (skipn i (p :: l)).
Proof.
  intros Ee. induction n as [|n IH]; intros it i fuel H Hi He Hn Hf.
  - destruct fuel as [|fuel]; [lia|]. cbn [swalk]. rewrite (seqb_end a p l e false it Ee H), He.
    destruct (sinc_ok a (p :: l) false it i H Hi) as (it' & E' & K & P). rewrite E'. cbn [bind].
    pose proof H as (_ & j & Hj & H3 & _ & Hv). assert (j = i) by congruence. subst j. specialize (Hv eq_refl).
    cbn [length] in H3, P. rewrite (proj2 (Nat.eqb_eq _ _)) in P by lia. destruct P as (P1 & P2 & P3).
    destruct fuel; cbn [swalk]; rewrite (seqb_end a p l e false it' Ee K), P2; cbn [bind].
    + apply nth_error_split in Hv as (u & w & Hu & <-). rewrite Hu, skipn_app, skipn_all, Nat.sub_diag. cbn [skipn app].
      assert (length (p :: l) = length (u ++ sval it :: w)) as Hl by now rewrite Hu.
      rewrite app_length in Hl. cbn [length] in Hl. destruct w; [reflexivity|]. cbn [length] in Hl. lia.
    + apply nth_error_split in Hv as (u & w & Hu & <-). rewrite Hu, skipn_app, skipn_all, Nat.sub_diag. cbn [skipn app].
      assert (length (p :: l) = length (u ++ sval it :: w)) as Hl by now rewrite Hu.
      rewrite app_length in Hl. cbn [length] in Hl. destruct w; [reflexivity|]. cbn [length] in Hl. lia.
  - destruct fuel as [|fuel]; [lia|]. cbn [swalk]. rewrite (seqb_end a p l e false it Ee H), He.
    destruct (sinc_ok a (p :: l) false it i H Hi) as (it' & E' & K & P). rewrite E'. cbn [bind].
    cbn [length] in P. rewrite (proj2 (Nat.eqb_neq _ _)) in P by lia. destruct P as (P1 & P2 & P3).
    rewrite (IH it' (S i) fuel K P1) by (congruence || lia). cbn [bind]. f_equal.
    pose proof H as (_ & j & Hj & H3 & _ & Hv). assert (j = i) by congruence. subst j. specialize (Hv eq_refl).
    apply nth_error_split in Hv as (u & w & Hu & Hlen). rewrite Hu, <- Hlen.
    rewrite skipn_app, skipn_all2 by lia. replace (S (length u) - length u)%nat with 1%nat by lia.
    rewrite skipn_app, skipn_all, Nat.sub_diag. reflexivity.
Qed.

Lemma back_ok a p l b : res_begin dflt (Some (a, p :: l)) = Ok b ->
  forall i it fuel f, ok a (p :: l) f it -> spos it = Some i -> sat_end it = false -> (i <= fuel)%nat ->
  swalk_back fuel it b = Ok (rev (firstn i (p :: l))).
Proof.
  intros Eb. destruct (begin_ok a p l) as (x & Ex & Kb & Pb & Qb). assert (x = b) by congruence. subst x.
  induction i as [|i IH]; intros it fuel f H Hi He Hf.
  - assert (Q : seqb it b = true) by (apply (seqb_ok a (p :: l) f false it b 0 0 H Kb Hi Pb); split; congruence).
    destruct fuel; cbn [swalk_back]; rewrite Q; reflexivity.
  - assert (Q : seqb it b = false).
    { apply not_true_iff_false. rewrite (seqb_ok a (p :: l) f false it b (S i) 0 H Kb Hi Pb). intros [Q _]. discriminate. }
    destruct fuel as [|fuel]; [lia|]. cbn [swalk_back]. rewrite Q.
    pose proof (sdec_ok a (p :: l) f it (S i) H Hi) as D. rewrite He in D. destruct D as (it' & E' & K & P1 & P2 & P3).
    rewrite E'. cbn [bind]. rewrite (IH it' fuel f K P1 P2) by lia. cbn [bind]. f_equal.
    assert (Ef : firstn (S i) (p :: l) = firstn i (p :: l) ++ [sval it']).
    { revert P3. generalize (p :: l). generalize (sval it'). clear. induction i as [|i IHi]; intros v [|y k] E; try discriminate.
      - injection E as ->. reflexivity.
      - cbn [nth_error] in E. cbn [firstn app]. f_equal. now apply IHi. }
    rewrite Ef, rev_app_distr. reflexivity.
Qed.

Lemma back_end_ok a p l b : res_begin dflt (Some (a, p :: l)) = Ok b ->
  forall it f, ok a (p :: l) f it -> sat_end it = true ->
  swalk_back (S (length (p :: l))) it b = Ok (sval it :: tl (rev (p :: l))).
Proof.
  intros Eb it f H He. destruct (begin_ok a p l) as (x & Ex & Kb & Pb & Qb). assert (x = b) by congruence. subst x.
  pose proof H as (_ & i & Hi & H3 & H4 & _). specialize (H4 He).
  assert (Q : seqb it b = false).
  { apply not_true_iff_false. rewrite (seqb_ok a (p :: l) f false it b i 0 H Kb Hi Pb). intros [_ Q]. congruence. }
  cbn [swalk_back]. rewrite Q. pose proof (sdec_ok a (p :: l) f it i H Hi) as D. rewrite He in D.
  destruct D as (it' & E' & K & P1 & P2 & P3). rewrite E'. cbn [bind].
  rewrite (back_ok a p l b Eb i it' (length (p :: l)) f K P1 P2) by lia. cbn [bind]. rewrite P3. do 2 f_equal.
  assert (Hx : exists u v, p :: l = u ++ [v]) by (destruct (exists_last (l := p :: l)) as (u & v & E); [discriminate|eauto]).
  destruct Hx as (u & v & Hu). rewrite Hu in *. rewrite app_length in H4. cbn [length] in H4.
  rewrite firstn_app, firstn_all2, rev_app_distr by lia. replace (i - length u)%nat with 0%nat by lia.
  cbn [firstn]. rewrite rev_app_distr. reflexivity.
Qed.

End H.

(** ** C77 *)

Section T.
Context {V : Type}.
Variable dflt : V.
Notation item := (Z * Z * V)%type.

(** What [begin] to [end] shows after any history: the stored points of the window, each
    once. *)
Theorem C77_walk : forall (os : list (op V)) t a x1 y1 x2 y2, run QE os = Ok t ->
  let r := search a x1 y1 x2 y2 t in
  exists b e l, res_begin dflt r = Ok b /\ res_end dflt r = Ok e /\ swalk (S (size t)) b e = Ok l /\
    NoDup (map fst l) /\
    forall x y v, In (x, y, v) l <-> find x y t = Ok v /\ x1 <= x <= x2 /\ y1 <= y <= y2.
Proof.
  intros os t a x1 y1 x2 y2 E r. pose proof (C28_search_region V os t x1 y1 x2 y2 E) as HS.
  assert (Hlen : (length (search_region x1 y1 x2 y2 t) <= size t)%nat).
  { rewrite (search_region_filter x1 y1 x2 y2 t (run_wf os QE t I E)), size_stored.
    clear. induction (stored t) as [|x l IH]; cbn [filter length]; [lia|]. destruct (in_window _ _ _ _ x); cbn [length]; lia. }
  unfold r. rewrite search_eq. destruct (search_region x1 y1 x2 y2 t) as [|p l].
  - eexists. eexists. exists []. split; [reflexivity|]. split; [reflexivity|]. split; [reflexivity|]. exact HS.
  - destruct (begin_ok dflt a p l) as (b & Eb & Kb & Pb & Qb). destruct (end_ok dflt a p l) as (e & Ee & Ke & _).
    exists b, e, (p :: l). split; [exact Eb|]. split; [exact Ee|]. split; [|exact HS].
    cbn [length] in Hlen. exact (swalk_ok dflt a p l e Ee (length l) b 0%nat (S (size t)) Kb Pb Qb ltac:(lia) ltac:(lia)).
Qed.

(** Both overloads of search_region give the same points in the same order. *)
Theorem C77_same_as_array : forall (os : list (op V)) t a x1 y1 x2 y2, run QE os = Ok t ->
  forall b e, res_begin dflt (search a x1 y1 x2 y2 t) = Ok b -> res_end dflt (search a x1 y1 x2 y2 t) = Ok e ->
  swalk (S (size t)) b e = Ok (search_region x1 y1 x2 y2 t).
Proof.
  intros os t a x1 y1 x2 y2 E b e Eb Ee.
  assert (Hlen : (length (search_region x1 y1 x2 y2 t) <= size t)%nat).
  { rewrite (search_region_filter x1 y1 x2 y2 t (run_wf os QE t I E)), size_stored.
    clear. induction (stored t) as [|x l IH]; cbn [filter length]; [lia|]. destruct (in_window _ _ _ _ x); cbn [length]; lia. }
  rewrite search_eq in Eb, Ee. destruct (search_region x1 y1 x2 y2 t) as [|p l].
  - injection Eb as <-. injection Ee as <-. reflexivity.
  - destruct (begin_ok dflt a p l) as (b' & Eb' & Kb & Pb & Qb). assert (b' = b) by congruence. subst b'.
    cbn [length] in Hlen. exact (swalk_ok dflt a p l e Ee (length l) b 0%nat (S (size t)) Kb Pb Qb ltac:(lia) ltac:(lia)).
Qed.

(** Steps and comparison on one result that is not empty. *)
Theorem C77_moves : forall a (l : list item) f it, l <> [] ->
  made dflt (Some (a, l)) f it ->
  (is_begin dflt (Some (a, l)) it <-> sdec it = Undef) /\
  (exists it', sinc it = Ok it' /\
     (is_end dflt (Some (a, l)) it -> seqb it' it = true) /\
     (~ is_end dflt (Some (a, l)) it -> exists it'', sdec it' = Ok it'' /\ seqb it'' it = true /\
        (f = false -> sval it'' = sval it))) /\
  (forall it', sdec it = Ok it' -> exists it'', sinc it' = Ok it'' /\ seqb it'' it = true /\ (f = false -> sval it'' = sval it)).
Proof.
  intros a l f it Hl Hm. destruct l as [|p l]; [congruence|]. pose proof (made_ok dflt a p l f it Hm) as K.
  destruct (begin_ok dflt a p l) as (b & Eb & Kb & Pb & Qb). destruct (end_ok dflt a p l) as (e & Ee & Ke & Pe & Qe).
  pose proof K as (K1 & i & Hi & K3 & K4 & K5).
  assert (HB : is_begin dflt (Some (a, p :: l)) it <-> i = 0%nat /\ sat_end it = false).
  { unfold is_begin. split.
    - intros (x & Ex & Q). assert (x = b) by congruence. subst x.
      apply (seqb_ok a (p :: l) f false it b i 0 K Kb Hi Pb) in Q. now rewrite Qb in Q.
    - intros Q. exists b. split; [exact Eb|]. apply (seqb_ok a (p :: l) f false it b i 0 K Kb Hi Pb). now rewrite Qb. }
  assert (HE : is_end dflt (Some (a, p :: l)) it <-> sat_end it = true).
  { unfold is_end. split.
    - intros (x & Ex & Q). now rewrite (seqb_end dflt a p l x f it Ex K) in Q.
    - intros Q. exists e. split; [exact Ee|]. now rewrite (seqb_end dflt a p l e f it Ee K). }
  rewrite HB. pose proof (sdec_ok a (p :: l) f it i K Hi) as D.
  destruct (sinc_ok a (p :: l) f it i K Hi) as (it' & E' & K' & P').
  split; [|split].
  - destruct (sat_end it).
    + destruct D as (x & Ex & _). rewrite Ex. split; [intros [_ Q]; discriminate|discriminate].
    + destruct i as [|i]; [split; auto|]. destruct D as (x & Ex & _). rewrite Ex. split; [intros [Q _]; discriminate|discriminate].
  - exists it'. split; [exact E'|]. split.
    + intros Q. apply HE in Q. specialize (K4 Q). rewrite (proj2 (Nat.eqb_eq _ _)) in P' by exact K4.
      destruct P' as (P1 & P2 & P3). apply (seqb_ok a (p :: l) f f it' it i i K' K P1 Hi). split; congruence.
    + intros Q. rewrite HE in Q. destruct (sat_end it) eqn:Es; [congruence|].
      destruct (Nat.eqb_spec (S i) (length (p :: l))) as [En|En].
      * destruct P' as (P1 & P2 & P3). pose proof (sdec_ok a (p :: l) f it' i K' P1) as D'. rewrite P2 in D'.
        destruct D' as (y & Ey & Ky & Py1 & Py2 & Py3). exists y. split; [exact Ey|]. split; [|intros _; congruence].
        apply (seqb_ok a (p :: l) f f y it i i Ky K Py1 Hi). split; congruence.
      * destruct P' as (P1 & P2 & P3). pose proof (sdec_ok a (p :: l) f it' (S i) K' P1) as D'. rewrite P2 in D'.
        destruct D' as (y & Ey & Ky & Py1 & Py2 & Py3). exists y. split; [exact Ey|].
        split; [apply (seqb_ok a (p :: l) f f y it i i Ky K Py1 Hi); split; congruence|].
        intros Hf. specialize (K5 Hf). congruence.
  - intros y Ey. destruct (sat_end it) eqn:Es.
    + destruct D as (x & Ex & Kx & Px1 & Px2 & Px3). assert (x = y) by congruence. subst x.
      destruct (sinc_ok a (p :: l) f y i Kx Px1) as (z & Ez & Kz & Pz). rewrite (proj2 (Nat.eqb_eq _ _)) in Pz by auto.
      destruct Pz as (Pz1 & Pz2 & Pz3). exists z. split; [exact Ez|]. split; [|intros _; congruence].
      apply (seqb_ok a (p :: l) f f z it i i Kz K Pz1 Hi). split; congruence.
    + destruct i as [|i]; [congruence|]. destruct D as (x & Ex & Kx & Px1 & Px2 & Px3). assert (x = y) by congruence. subst x.
      destruct (sinc_ok a (p :: l) f y i Kx Px1) as (z & Ez & Kz & Pz). rewrite (proj2 (Nat.eqb_neq _ _)) in Pz by lia.
      destruct Pz as (Pz1 & Pz2 & Pz3). exists z. split; [exact Ez|].
      split; [apply (seqb_ok a (p :: l) f f z it (S i) (S i) Kz K Pz1 Hi); split; congruence|].
      intros Hf. specialize (K5 Hf). congruence.
Qed.

(** Walking back from the end.  An iterator that got there with ++ shows the reverse of
    the forward walk.
    Missing for the full statement: the iterator end() returns, see C77_back_refuted. *)
Theorem C77_back_partial : forall a (l : list item) b it, l <> [] ->
  res_begin dflt (Some (a, l)) = Ok b -> made dflt (Some (a, l)) false it -> is_end dflt (Some (a, l)) it ->
  swalk_back (S (length l)) it b = Ok (rev l).
Proof.
  intros a l b it Hl Eb Hm (e & Ee & Q). destruct l as [|p l]; [congruence|].
  pose proof (made_ok dflt a p l false it Hm) as K. rewrite (seqb_end dflt a p l e false it Ee K) in Q.
  rewrite (back_end_ok dflt a p l b Eb it false K Q). f_equal.
  destruct K as (_ & i & Hi & K3 & K4 & K5). specialize (K4 Q). specialize (K5 eq_refl).
  assert (Hx : exists u v, p :: l = u ++ [v]) by (destruct (exists_last (l := p :: l)) as (u & v & E); [discriminate|eauto]).
  destruct Hx as (u & v & Hu). rewrite Hu in *. rewrite app_length in K4. cbn [length] in K4.
  rewrite rev_app_distr. cbn [rev app tl]. f_equal.
  rewrite nth_error_app2 in K5 by lia. replace (i - length u)%nat with 0%nat in K5 by lia. now injection K5.
Qed.

(** Exactly what end() gives instead: the last point is replaced by the point (0, 0) with
    a default value. *)
Theorem C77_back_from_end : forall a (l : list item) b e, l <> [] ->
  res_begin dflt (Some (a, l)) = Ok b -> res_end dflt (Some (a, l)) = Ok e ->
  swalk_back (S (length l)) e b = Ok ((0, 0, dflt) :: tl (rev l)).
Proof.
  intros a l b e Hl Eb Ee. destruct l as [|p l]; [congruence|].
  destruct (end_ok dflt a p l) as (x & Ex & K & P & Q). assert (x = e) by congruence. subst x.
  rewrite (back_end_ok dflt a p l b Eb e true K Q). injection Ee as <-. reflexivity.
Qed.

(** Comparison: within one result, equal exactly at the same place, and then they show the
    same; results of two searches are never mixed up; an empty result has begin() equal to
    end(). *)
Theorem C77_equal : forall a (l : list item) f g it it', l <> [] ->
  made dflt (Some (a, l)) f it -> made dflt (Some (a, l)) g it' ->
  (seqb it it' = seqb it' it) /\
  (seqb it it' = true -> f = false -> g = false -> sval it = sval it') /\
  (NoDup l -> f = false -> g = false -> ~ is_end dflt (Some (a, l)) it -> ~ is_end dflt (Some (a, l)) it' ->
     sval it = sval it' -> seqb it it' = true) /\
  (forall a' l' h it2, a' <> a -> l' <> [] -> made dflt (Some (a', l')) h it2 -> seqb it it2 = false).
Proof.
  intros a l f g it it' Hl Hm Hm'. destruct l as [|p l]; [congruence|].
  pose proof (made_ok dflt a p l f it Hm) as K. pose proof (made_ok dflt a p l g it' Hm') as K'.
  pose proof K as (K1 & i & Hi & K3 & K4 & K5). pose proof K' as (L1 & j & Hj & L3 & L4 & L5).
  split; [|split; [|split]].
  - apply eq_true_iff_eq. rewrite (seqb_ok a (p :: l) f g it it' i j K K' Hi Hj), (seqb_ok a (p :: l) g f it' it j i K' K Hj Hi).
    split; intros [-> ->]; auto.
  - intros Q Hf Hg. apply (seqb_ok a (p :: l) f g it it' i j K K' Hi Hj) in Q. destruct Q as [-> _].
    specialize (K5 Hf). specialize (L5 Hg). congruence.
  - intros ND Hf Hg N N' Q. specialize (K5 Hf). specialize (L5 Hg).
    destruct (end_ok dflt a p l) as (e & Ee & Ke & Pe & Qe).
    assert (sat_end it = false).
    { destruct (sat_end it) eqn:Es; [|reflexivity]. exfalso. apply N. exists e. split; [exact Ee|].
      now rewrite (seqb_end dflt a p l e f it Ee K). }
    assert (sat_end it' = false).
    { destruct (sat_end it') eqn:Es; [|reflexivity]. exfalso. apply N'. exists e. split; [exact Ee|].
      now rewrite (seqb_end dflt a p l e g it' Ee K'). }
    apply (seqb_ok a (p :: l) f g it it' i j K K' Hi Hj). split; [|congruence].
    rewrite NoDup_nth_error in ND. apply ND; [exact K3|]. congruence.
  - intros a' l' h it2 Ha Hl' Hm2. destruct l' as [|p' l']; [congruence|].
    pose proof (made_ok dflt a' p' l' h it2 Hm2) as (M1 & _). unfold seqb. rewrite K1, M1.
    destruct (Nat.eqb_spec a a'); [congruence|]. reflexivity.
Qed.

(** An empty window: begin() equals end(). *)
Theorem C77_empty : forall (os : list (op V)) t a x1 y1 x2 y2, run QE os = Ok t ->
  ((forall x y v, find x y t = Ok v -> ~ (x1 <= x <= x2 /\ y1 <= y <= y2)) <->
   exists b e, res_begin dflt (search a x1 y1 x2 y2 t) = Ok b /\ res_end dflt (search a x1 y1 x2 y2 t) = Ok e /\
     seqb b e = true).
Proof.
  intros os t a x1 y1 x2 y2 E. destruct (C28_search_region V os t x1 y1 x2 y2 E) as [_ HS]. rewrite search_eq.
  destruct (search_region x1 y1 x2 y2 t) as [|p l].
  - split; intros _; [eexists; eexists; split; [reflexivity|]; split; reflexivity|].
    intros x y v F Hw. apply (proj2 (HS x y v)). tauto.
  - destruct (begin_ok dflt a p l) as (b & Eb & Kb & Pb & Qb). destruct (end_ok dflt a p l) as (e & Ee & Ke & Pe & Qe).
    split.
    + intros H. exfalso. destruct p as [[x y] v]. destruct (proj1 (HS x y v) (or_introl eq_refl)) as (F & Hw).
      exact (H x y v F Hw).
    + intros (b' & e' & Eb' & Ee' & Q). exfalso. rewrite Eb in Eb'. injection Eb' as <-.
      rewrite (seqb_end dflt a p l e' false b Ee' Kb) in Q. congruence.
Qed.
End T.

(** ** C78 *)

Section N.
Context {V : Type}.
Notation item := (Z * Z * V)%type.

Lemma node_at_app p q (t : qt V) : node_at (p ++ q) t = node_at q (node_at p t).
Proof. revert t. induction p as [|x p IH]; intros t; [reflexivity|]. apply (IH (child x t)). Qed.

Lemma held_ok (t : qt V) a : held t a -> match a with Some p => node_at p t <> QE | None => True end.
Proof.
  induction 1 as [|q a a' _ IH E].
  - unfold get_node_access, mk_access. destruct (node_at [] t) eqn:En; [exact I|]. rewrite En. discriminate.
  - destruct a as [p|]; [|discriminate]. unfold go in E. cbn [deref bind] in E. injection E as <-.
    unfold mk_access. destruct (node_at (p ++ [q]) t) eqn:En; [exact I|]. rewrite En. discriminate.
Qed.

Fixpoint height (t : qt V) : nat :=
  match t with
  | QE => 0
  | QN _ _ _ _ ne nw se sw => S (Nat.max (Nat.max (height ne) (height nw)) (Nat.max (height se) (height sw)))
  end.

Lemma height_size (t : qt V) : (height t <= size t)%nat.
Proof. induction t; cbn [height size]; lia. Qed.

Lemma visit_ok (t : qt V) fuel : forall p, (height (node_at p t) <= fuel)%nat ->
  visit fuel t (mk_access p t) = Ok (stored (node_at p t)).
Proof.
  induction fuel as [|fuel IH]; intros p H.
  - unfold mk_access. destruct (node_at p t) eqn:En; [reflexivity|]. cbn [height] in H. lia.
  - unfold mk_access at 1. destruct (node_at p t) as [|k x y v ne nw se sw] eqn:En; [reflexivity|].
    cbn [visit acc_bool acc_item deref bind]. rewrite En. cbn [bind go deref].
    assert (C : forall q, node_at (p ++ [q]) t = child q (QN k x y v ne nw se sw)).
    { intros q. rewrite node_at_app, En. reflexivity. }
    cbn [height] in H.
    rewrite (IH (p ++ [NE])), (IH (p ++ [NW])), (IH (p ++ [SE])), (IH (p ++ [SW])); rewrite ?C; cbn [child bind]; try lia.
    reflexivity.
Qed.

(** Visiting every node through the access shows every stored point, once; the root is
    null exactly for an empty tree. *)
Theorem C78_visit : forall (os : list (op V)) t, run QE os = Ok t ->
  (exists l, visit (size t) t (get_node_access t) = Ok l /\ NoDup (map fst l) /\ length l = size t /\
     forall x y v, In (x, y, v) l <-> find x y t = Ok v) /\
  (acc_bool (get_node_access t) = false <-> size t = 0%nat).
Proof.
  intros os t E. pose proof (run_wf os QE t I E) as W. split.
  - exists (stored t). split; [|split; [|split]].
    + unfold get_node_access. rewrite visit_ok; [reflexivity|]. apply height_size.
    + exact (wf_nodup t W).
    + symmetry. apply size_stored.
    + intros x y v. symmetry. now apply find_ok.
  - destruct t; cbn; [tauto|split; [discriminate|lia]].
Qed.

Lemma wf_at (t : qt V) p : wf t -> wf (node_at p t).
Proof.
  revert t. induction p as [|q p IH]; intros t W; [exact W|]. cbn [node_at]. apply IH.
  destruct t as [|k x y v ne nw se sw]; [exact W|]. cbn [wf] in W. destruct q; cbn [child]; tauto.
Qed.

Lemma stored_at (t : qt V) p k x y v ne nw se sw :
  node_at p t = QN k x y v ne nw se sw -> In (x, y, v) (stored t).
Proof.
  revert t. induction p as [|q p IH]; intros t E.
  - cbn [node_at] in E. subst t. now left.
  - cbn [node_at] in E. specialize (IH _ E). destruct t as [|k' x' y' v' ne' nw' se' sw']; [now destruct q|].
    cbn [stored]. right. rewrite !in_app_iff. destruct q; cbn [child] in IH; auto.
Qed.

Lemma below_path (t : qt V) p a : below t (Some p) a -> forall p', a = Some p' -> exists q, p' = p ++ q.
Proof.
  induction 1 as [|q b b' _ IH E]; intros p' Hp.
  - injection Hp as <-. exists []. now rewrite app_nil_r.
  - destruct b as [u|]; [|discriminate]. destruct (IH u eq_refl) as (w & ->). unfold go in E. cbn [deref bind] in E.
    injection E as <-. unfold mk_access in Hp. destruct (node_at ((p ++ w) ++ [q]) t); [discriminate|].
    injection Hp as <-. exists (w ++ [q]). now rewrite app_assoc.
Qed.

(** Every node found below a child lies in the quadrant of that child. *)
Theorem C78_quadrants : forall (os : list (op V)) t a q c d i j, run QE os = Ok t ->
  held t a -> go q t a = Ok c -> below t c d ->
  acc_item t a = Ok i -> acc_item t d = Ok j -> lies q i j.
Proof.
  intros os t a q c d i j E Ha Ec Hd Ei Ej. pose proof (run_wf os QE t I E) as W.
  destruct a as [p|]; [|discriminate]. unfold go in Ec. cbn [deref bind] in Ec. injection Ec as <-.
  unfold acc_item in Ei, Ej. cbn [deref bind] in Ei. destruct d as [pd|]; [|discriminate]. cbn [deref bind] in Ej.
  assert (Hc : exists w, pd = (p ++ [q]) ++ w).
  { unfold mk_access in Hd. destruct (node_at (p ++ [q]) t) eqn:En.
    - exfalso. assert (G : forall b, below t None b -> b = None).
      { induction 1 as [|q' b b' Hb IH Eg]; [reflexivity|]. subst b. discriminate. }
      specialize (G _ Hd). discriminate.
    - exact (below_path t (p ++ [q]) (Some pd) Hd pd eq_refl). }
  destruct Hc as (w & ->). rewrite !node_at_app in Ej. cbn [node_at] in Ej.
  pose proof (wf_at t p W) as Wp. destruct (node_at p t) as [|k x y v ne nw se sw]; [discriminate|].
  injection Ei as <-. destruct (node_at w (child q (QN k x y v ne nw se sw))) as [|k' x' y' v' ne' nw' se' sw'] eqn:En; [discriminate|].
  injection Ej as <-. apply stored_at in En. cbn [wf] in Wp. destruct Wp as (_ & _ & _ & _ & Q1 & Q2 & Q3 & Q4).
  rewrite Forall_forall in Q1, Q2, Q3, Q4.
  assert (Q : inq x y q (x', y', v')) by (destruct q; cbn [child] in En; auto).
  unfold lies. split; [exact (proj2 Q)|]. apply inq_iff in Q. destruct q; tauto.
Qed.

Lemma path_eqb_eq p q : path_eqb p q = true <-> p = q.
Proof.
  revert q. induction p as [|x p IH]; intros [|y q]; cbn [path_eqb]; try (split; [discriminate|discriminate]); [tauto|].
  rewrite andb_true_iff, IH. destruct x, y; cbn [quad_eqb]; split; try (intros [? ?]; discriminate); try discriminate;
    try (intros [_ ->]; reflexivity); intros [= ->]; auto.
Qed.

Lemma key_path (t : qt V) : wf t -> forall p p' k k' x y v v' ne nw se sw ne' nw' se' sw',
  node_at p t = QN k x y v ne nw se sw -> node_at p' t = QN k' x y v' ne' nw' se' sw' -> p = p'.
Proof.
  induction t as [|k0 x0 y0 v0 ne0 IH1 nw0 IH2 se0 IH3 sw0 IH4]; intros W p p' k k' x y v v' ne nw se sw ne' nw' se' sw' E E'.
  - exfalso. assert (G : forall r, node_at r (QE : qt V) = QE) by (induction r as [|z r IHr]; [reflexivity|now destruct z]).
    rewrite G in E. discriminate.
  - cbn [wf] in W. destruct W as (W1 & W2 & W3 & W4 & Q1 & Q2 & Q3 & Q4).
    rewrite Forall_forall in Q1, Q2, Q3, Q4.
    assert (Q : forall q r u kk vv a1 a2 a3 a4, node_at (q :: r) (QN k0 x0 y0 v0 ne0 nw0 se0 sw0) = u ->
       u = QN kk x y vv a1 a2 a3 a4 -> inq x0 y0 q (x, y, vv)).
    { intros q r u kk vv a1 a2 a3 a4 Eu ->. cbn [node_at] in Eu. apply stored_at in Eu. destruct q; cbn [child] in Eu; auto. }
    destruct p as [|q p], p' as [|q' p'].
    + reflexivity.
    + exfalso. destruct (Q _ _ _ _ _ _ _ _ _ E' eq_refl) as [_ N]. cbn [node_at] in E. injection E as -> -> -> -> -> -> -> ->.
      now apply N.
    + exfalso. destruct (Q _ _ _ _ _ _ _ _ _ E eq_refl) as [_ N]. cbn [node_at] in E'. injection E' as -> -> -> -> -> -> -> ->.
      now apply N.
    + destruct (Q _ _ _ _ _ _ _ _ _ E eq_refl) as [G _]. destruct (Q _ _ _ _ _ _ _ _ _ E' eq_refl) as [G' _].
      cbn [fst snd] in G, G'. assert (Hq : q' = q) by congruence. clear G G'. subst q'. f_equal. cbn [node_at] in E, E'.
      destruct q; cbn [child] in E, E'; [eapply IH1|eapply IH2|eapply IH3|eapply IH4]; eassumption.
Qed.

(** Comparison of accesses: equal exactly when both are null or show the same point. *)
Theorem C78_equal : forall (os : list (op V)) t a b, run QE os = Ok t -> held t a -> held t b ->
  (acc_eqb a b = true <->
   (acc_bool a = false /\ acc_bool b = false) \/
   exists x y v, acc_item t a = Ok (x, y, v) /\ acc_item t b = Ok (x, y, v)) /\
  (acc_bool a = true -> exists i, acc_item t a = Ok i) /\
  (acc_bool a = true <-> forall q, exists c, go q t a = Ok c).
Proof.
  intros os t a b E Ha Hb. pose proof (run_wf os QE t I E) as W. apply held_ok in Ha, Hb.
  split; [|split].
  - destruct a as [p|], b as [q|]; cbn [acc_eqb acc_bool].
    + rewrite path_eqb_eq. unfold acc_item. cbn [deref bind].
      destruct (node_at p t) as [|k x y v n1 n2 n3 n4] eqn:Ep; [congruence|].
      destruct (node_at q t) as [|k' x' y' v' m1 m2 m3 m4] eqn:Eq; [congruence|]. split.
      * intros ->. right. exists x, y, v. rewrite Ep in Eq. injection Eq as <- <- <- <- <- <- <- <-. auto.
      * intros [[Q _]|(x2 & y2 & v2 & Q1 & Q2)]; [discriminate|]. injection Q1 as -> -> ->. injection Q2 as -> -> ->.
        exact (key_path t W _ _ _ _ _ _ _ _ _ _ _ _ _ _ _ _ Ep Eq).
    + split; [discriminate|]. intros [[Q _]|(x & y & v & _ & Q)]; discriminate.
    + split; [discriminate|]. intros [[_ Q]|(x & y & v & Q & _)]; discriminate.
    + split; auto.
  - destruct a as [p|]; [|discriminate]. intros _. unfold acc_item. cbn [deref bind].
    destruct (node_at p t) as [|k x y v n1 n2 n3 n4]; [congruence|]. eauto.
  - destruct a as [p|]; cbn [acc_bool].
    + split; [|reflexivity]. intros _ q. unfold go. cbn [deref bind]. eauto.
    + split; [discriminate|]. intros H. destruct (H NE) as (c & Hc). discriminate.
Qed.
End N.

(** ** Concrete cases *)

Definition ext : qt Z := match run QE (ex_ins ++ [ORemove 3 4]) with Ok t => t | _ => QE end.
Example ext_run : run QE (ex_ins ++ [ORemove 3 4]) = Ok ext.
Proof. vm_compute. reflexivity. Qed.

Example C77_case : run QE (ex_ins ++ [ORemove 3 4]) = Ok ext /\
  search 7 10 0 15 10 ext = Some (7%nat, [(10, 10, 5); (15, 5, 3)]) /\ search 7 0 0 3 3 ext = None.
Proof. split; [exact ext_run|]. split; vm_compute; reflexivity. Qed.
Example C77_made_case : exists b it e,
  res_begin 0 (Some (7%nat, [(10, 10, 5); (15, 5, 3)])) = Ok b /\ sinc b = Ok it /\ sinc it = Ok e /\
  made 0 (Some (7%nat, [(10, 10, 5); (15, 5, 3)])) false e /\ is_end 0 (Some (7%nat, [(10, 10, 5); (15, 5, 3)])) e /\
  swalk_back 3 e b = Ok [(15, 5, 3); (10, 10, 5)].
Proof.
  set (r := Some (7%nat, [(10, 10, 5); (15, 5, 3)])).
  destruct (res_begin 0 r) as [b| |] eqn:Eb; [|vm_compute in Eb; discriminate..].
  assert (made 0 r false b) as M0 by now apply m_begin.
  vm_compute in Eb. injection Eb as <-.
  eexists. eexists. eexists. split; [reflexivity|]. split; [vm_compute; reflexivity|].
  split; [vm_compute; reflexivity|]. split; [|split].
  - eapply m_inc; [eapply m_inc; [exact M0|vm_compute; reflexivity]|vm_compute; reflexivity].
  - eexists. split; [vm_compute; reflexivity|]. vm_compute. reflexivity.
  - vm_compute. reflexivity.
Qed.

(** Finding Q4: the first step back from end() shows the point (0, 0) with a default value
    instead of the last point of the result. *)
Theorem C77_back_refuted : exists (os : list (op Z)) t b e, run QE os = Ok t /\
  res_begin 0 (search 1 0 0 100 100 t) = Ok b /\ res_end 0 (search 1 0 0 100 100 t) = Ok e /\
  swalk 9 b e = Ok [(10, 10, 5); (15, 5, 3); (3, 4, 4)] /\
  swalk_back 9 e b = Ok [(0, 0, 0); (15, 5, 3); (10, 10, 5)] /\
  forall v, find 0 0 t <> Ok v.
Proof.
  exists [OInsert 10 10 5; OInsert 15 5 3; OInsert 3 4 4]. eexists. eexists. eexists.
  split; [vm_compute; reflexivity|]. split; [vm_compute; reflexivity|]. split; [vm_compute; reflexivity|].
  split; [vm_compute; reflexivity|]. split; [vm_compute; reflexivity|]. intros v. vm_compute. discriminate.
Qed.

Example C78_case : exists c d, run QE (ex_ins ++ [ORemove 3 4]) = Ok ext /\
  held ext (get_node_access ext) /\ go NE ext (get_node_access ext) = Ok c /\ held ext c /\
  go SW ext c = Ok d /\ below ext c d /\
  acc_item ext (get_node_access ext) = Ok (10, 10, 5) /\ acc_item ext c = Ok (20, 0, 2) /\
  acc_item ext d = Ok (15, 5, 3) /\ acc_eqb c d = false.
Proof.
  eexists. eexists. split; [exact ext_run|]. split; [apply h_root|]. split; [vm_compute; reflexivity|].
  split; [apply (h_go _ NE (get_node_access ext)); [apply h_root|vm_compute; reflexivity]|]. split; [vm_compute; reflexivity|].
  split; [eapply (b_go _ _ SW); [apply b_here|vm_compute; reflexivity]|].
  split; [vm_compute; reflexivity|]. split; [vm_compute; reflexivity|]. split; vm_compute; reflexivity.
Qed.

(** One query for all the theorems of this file. *)
Definition PqtIter_theorems :=
  (@C77_walk, @C77_same_as_array, @C77_moves, @C77_back_partial, @C77_back_from_end, @C77_back_refuted,
   @C77_equal, @C77_empty, @C78_visit, @C78_quadrants, @C78_equal).
Print Assumptions PqtIter_theorems.
