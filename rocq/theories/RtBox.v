(** Boxes: enlarging, bounding boxes, enclosure. *)

From Coq Require Import List ZArith Lia Bool Permutation.
From Verif Require Import Base RtModel.
Import ListNotations.
Open Scope Z_scope.

(** A box within another one *)
Definition inside (b B : box) : Prop :=
  Forall2 (fun i J => fst J <= fst i /\ snd i <= snd J) b B.

(** A box whose start does not exceed its end *)
Definition proper (b : box) : Prop := Forall (fun i => fst i <= snd i) b.

Lemma box_eqb_eq a b : box_eqb a b = true <-> a = b.
Proof.
  revert b. induction a as [|[s e] a IH]; intros [|[s' e'] b]; cbn [box_eqb]; try (split; congruence).
  rewrite !andb_true_iff, !Z.eqb_eq, IH. split; [intros [[-> ->] ->]; auto|].
  intros H. injection H. auto.
Qed.

Lemma enl_length p c : length (enl p c) = length p.
Proof. revert c. induction p as [|[s e] p IH]; intros [|[s' e'] c]; cbn [enl length]; auto. Qed.

Lemma enl_idem b y : enl b (enl b y) = enl b y.
Proof.
  revert y. induction b as [|[s e] b IH]; intros [|[s' e'] y]; cbn [enl]; auto.
  - f_equal; [|clear; induction b as [|[s e'] b IH]; cbn [enl]; auto].
    + now rewrite !Z.ltb_irrefl.
    + now rewrite !Z.ltb_irrefl, IH.
  - rewrite IH. f_equal. f_equal.
    + destruct (s' <? s) eqn:E; [|now rewrite Z.ltb_irrefl]. now rewrite E.
    + destruct (e <? e') eqn:E; [|now rewrite Z.ltb_irrefl]. now rewrite E.
Qed.

Ltac bcase :=
  repeat match goal with
  | |- context [?a <? ?b] =>
      lazymatch a with context [if _ then _ else _] => fail | _ => idtac end;
      lazymatch b with context [if _ then _ else _] => fail | _ => idtac end;
      destruct (Z.ltb_spec a b)
  end; lia.

Lemma enl_swap a b c : enl (enl a b) c = enl (enl a c) b.
Proof.
  revert b c. induction a as [|[s e] a IH]; intros [|[s1 e1] b] [|[s2 e2] c]; cbn [enl]; auto.
  rewrite IH. f_equal. f_equal; bcase.
Qed.

Lemma enl_assoc a b c : length a = length b -> enl a (enl b c) = enl (enl a b) c.
Proof.
  revert b c. induction a as [|[s e] a IH]; intros [|[s1 e1] b] [|[s2 e2] c] L;
    cbn [enl length] in *; try discriminate; auto.
  rewrite IH by lia. f_equal. f_equal; bcase.
Qed.

Lemma enl_comm a b : length a = length b -> enl a b = enl b a.
Proof.
  revert b. induction a as [|[s e] a IH]; intros [|[s1 e1] b] L; cbn [enl length] in *; try discriminate; auto.
  rewrite IH by lia. f_equal. f_equal; bcase.
Qed.

Lemma fold_enl_length l b : length (fold_left enl l b) = length b.
Proof. revert b. induction l as [|x l IH]; intros b; cbn [fold_left]; [auto|]. rewrite IH. apply enl_length. Qed.

Lemma fold_enl_in l b y : fold_left enl l (enl b y) = enl (fold_left enl l b) y.
Proof.
  revert b. induction l as [|x l IH]; intros b; cbn [fold_left]; auto.
  rewrite <- IH. f_equal. apply enl_swap.
Qed.

Lemma inside_refl b : inside b b.
Proof. induction b as [|[s e] b IH]; constructor; auto; lia. Qed.

Lemma inside_trans a b c : inside a b -> inside b c -> inside a c.
Proof.
  intros H. revert c. induction H as [|i j a b Hij H IH]; intros c Hc; inversion Hc; subst; constructor.
  - lia.
  - now apply IH.
Qed.

Lemma inside_length a b : inside a b -> length a = length b.
Proof. induction 1; cbn [length]; auto. Qed.

Lemma inside_enl_l b y : inside b (enl b y).
Proof.
  revert y. induction b as [|[s e] b IH]; intros [|[s' e'] y]; cbn [enl]; try apply inside_refl.
  constructor; [|apply IH]. cbn [fst snd]. split; bcase.
Qed.

Lemma inside_enl_r b y : length b = length y -> inside y (enl b y).
Proof. intros L. rewrite enl_comm by auto. apply inside_enl_l. Qed.

Lemma inside_enl_mono a b y : inside a b -> inside (enl a y) (enl b y).
Proof.
  intros H. revert y. induction H as [|[s e] [s1 e1] a b Hij H IH]; intros [|[s' e'] y]; cbn [enl];
    try (constructor; auto; fail).
  constructor; [|apply IH]. cbn [fst snd] in *. split; bcase.
Qed.

Lemma inside_enl_case a b x : inside a x -> inside b x -> inside (enl a b) x.
Proof.
  intros H. revert b. induction H as [|[s e] [s1 e1] a x Hij H IH]; intros b Hb; inversion Hb; subst; cbn [enl]; auto.
  destruct x0 as [s2 e2]. constructor; [|now apply IH]. cbn [fst snd] in *. split; bcase.
Qed.

Section Fit.
Variable D : nat.

Notation lenD := (fun b : box => length b = D).

Lemma hull_length l : Forall lenD l -> length (hull D l) = D.
Proof.
  intros H. destruct l as [|b l]; cbn [hull]; [apply repeat_length|].
  rewrite fold_enl_length. now inversion H.
Qed.

Lemma hull_snoc l y : l <> [] -> hull D (l ++ [y]) = enl (hull D l) y.
Proof.
  destruct l as [|b l]; intros N; [congruence|]. cbn [hull app].
  rewrite fold_left_app. reflexivity.
Qed.

Lemma hull_replace l1 x l2 y : Forall lenD (l1 ++ x :: l2) ->
  hull D (l1 ++ enl x y :: l2) = enl (hull D (l1 ++ x :: l2)) y.
Proof.
  intros H. destruct l1 as [|b l1]; cbn [hull app].
  - apply fold_enl_in.
  - rewrite !fold_left_app. cbn [fold_left].
    rewrite (enl_assoc (fold_left enl l1 b) x y); [apply fold_enl_in|]. rewrite fold_enl_length.
    inversion H as [|? ? H1 H2]; subst. apply Forall_app in H2. destruct H2 as [_ H2].
    inversion H2. congruence.
Qed.

Lemma hull_inside l : Forall lenD l -> Forall (fun x => inside x (hull D l)) l.
Proof.
  intros H. destruct l as [|b l]; cbn [hull]; [constructor|].
  assert (G : forall l b, length b = D -> Forall lenD l ->
    inside b (fold_left enl l b) /\ Forall (fun x => inside x (fold_left enl l b)) l).
  { clear. induction l as [|x l IH]; intros b Hb H; cbn [fold_left].
    - split; [apply inside_refl|constructor].
    - apply Forall_cons_iff in H. destruct H as [Hx Hl].
      destruct (IH (enl b x)) as [I1 I2]; [rewrite enl_length; auto|auto|].
      split.
      + eapply inside_trans; [apply inside_enl_l|exact I1].
      + constructor; [|exact I2]. eapply inside_trans; [|exact I1]. apply inside_enl_r. congruence. }
  apply Forall_cons_iff in H. destruct H as [Hb Hl]. destruct (G l b Hb Hl). constructor; auto.
Qed.

Lemma hull_least l B : l <> [] -> Forall (fun x => inside x B) l -> inside (hull D l) B.
Proof.
  destruct l as [|b l]; intros N H; [congruence|]. cbn [hull]. clear N.
  inversion H as [|? ? Hb Hl]; subst. revert b Hb H. induction Hl as [|x l Hx Hl IH]; intros b Hb H; cbn [fold_left]; auto.
  apply IH; [now apply inside_enl_case|]. constructor; [now apply inside_enl_case|auto].
Qed.

(** The box of a directory fits the boxes of its children: equal to their bounding
    box, or (when [tg] is false) enclosing them *)
Definition fit (tg : bool) (b : box) (l : list box) : Prop :=
  length b = D /\ if tg then b = hull D l else Forall (fun x => inside x b) l.

Lemma fit_length tg b l : fit tg b l -> length b = D.
Proof. now intros [H _]. Qed.

Lemma fit_hull tg l : Forall lenD l -> fit tg (hull D l) l.
Proof. intros H. split; [now apply hull_length|]. destruct tg; [auto|now apply hull_inside]. Qed.

Lemma fit_inside tg b l : Forall lenD l -> fit tg b l -> Forall (fun x => inside x b) l.
Proof. intros H [_ F]. destruct tg; [subst b; now apply hull_inside|auto]. Qed.

Lemma fit_loose tg b l : Forall lenD l -> fit tg b l -> fit false b l.
Proof. intros H F. split; [apply F|]. eapply fit_inside; eauto. Qed.

Lemma fit_replace tg b l1 x l2 y : Forall lenD (l1 ++ x :: l2) ->
  fit tg b (l1 ++ x :: l2) -> fit tg (enl b y) (l1 ++ enl x y :: l2).
Proof.
  intros H [L F]. split; [now rewrite enl_length|]. destruct tg.
  - subst b. symmetry. now apply hull_replace.
  - apply Forall_app in F. destruct F as [F1 F2]. inversion F2 as [|? ? Fx F3]; subst.
    apply Forall_app. split; [|constructor].
    + eapply Forall_impl; [|exact F1]. intros a Ha. eapply inside_trans; [exact Ha|apply inside_enl_l].
    + now apply inside_enl_mono.
    + eapply Forall_impl; [|exact F3]. intros a Ha. eapply inside_trans; [exact Ha|apply inside_enl_l].
Qed.

Lemma fit_snoc tg b l y : length y = D -> l <> [] ->
  fit tg b l -> fit tg (enl b y) (l ++ [y]).
Proof.
  intros Ly N [L F]. split; [now rewrite enl_length|]. destruct tg.
  - subst b. symmetry. now apply hull_snoc.
  - apply Forall_app. split.
    + eapply Forall_impl; [|exact F]. intros a Ha. eapply inside_trans; [exact Ha|apply inside_enl_l].
    + constructor; [|constructor]. apply inside_enl_r. congruence.
Qed.

Lemma fit_one tg y : length y = D -> fit tg y [y].
Proof. intros L. apply (fit_hull tg [y]). constructor; auto. Qed.

End Fit.

(** Overlap of proper boxes, dimension by dimension *)
Lemma intersects_spec q b : length q = length b -> proper q -> proper b ->
  (intersects q b = true <->
   Forall2 (fun i j => fst i <= snd j /\ fst j <= snd i) q b).
Proof.
  revert b. induction q as [|[s e] q IH]; intros [|[s' e'] b] L Pq Pb; cbn [intersects length] in *; try discriminate.
  - split; auto.
  - inversion Pq as [|? ? P1 P2]; inversion Pb as [|? ? P3 P4]; subst. cbn [fst snd] in *.
    destruct (Z.ltb_spec s' s) as [Hs|Hs].
    + destruct (Z.ltb_spec e' s) as [He|He].
      * split; [discriminate|]. intros F. inversion F; subst. cbn [fst snd] in *. lia.
      * rewrite IH by (auto; lia). split.
        -- intros F. constructor; auto. cbn [fst snd]. lia.
        -- intros F. now inversion F.
    + destruct (Z.ltb_spec e s') as [He|He].
      * split; [discriminate|]. intros F. inversion F; subst. cbn [fst snd] in *. lia.
      * rewrite IH by (auto; lia). split.
        -- intros F. constructor; auto. cbn [fst snd]. lia.
        -- intros F. now inversion F.
Qed.

Lemma intersects_mono q b B : proper q -> proper b -> inside b B ->
  intersects q b = true -> intersects q B = true.
Proof.
  intros Pq Pb H. revert q Pq Pb. induction H as [|[s e] [s1 e1] b B Hij H IH]; intros [|[sq eq] q] Pq Pb Hi;
    cbn [intersects] in *; auto.
  inversion Pq as [|? ? P1 P2]; inversion Pb as [|? ? P3 P4]; subst. cbn [fst snd] in *.
  destruct (Z.ltb_spec s1 sq) as [H1|H1].
  - destruct (Z.ltb_spec e1 sq) as [H2|H2].
    + exfalso. destruct (Z.ltb_spec s sq); destruct (Z.ltb_spec e sq); try discriminate; try lia.
    + apply IH; auto. destruct (Z.ltb_spec s sq); [destruct (Z.ltb_spec e sq); [discriminate|auto]|].
      destruct (Z.ltb_spec eq s); [discriminate|auto].
  - destruct (Z.ltb_spec eq s1) as [H2|H2].
    + exfalso. destruct (Z.ltb_spec s sq); [destruct (Z.ltb_spec e sq); [discriminate|lia]|].
      destruct (Z.ltb_spec eq s); [discriminate|lia].
    + apply IH; auto. destruct (Z.ltb_spec s sq); [destruct (Z.ltb_spec e sq); [discriminate|auto]|].
      destruct (Z.ltb_spec eq s); [discriminate|auto].
Qed.

Lemma contains_inside B b : length B = length b -> (contains B b = true <-> inside b B).
Proof.
  revert b. induction B as [|[s e] B IH]; intros [|[s' e'] b] L; cbn [contains length] in *; try discriminate.
  - split; [constructor|auto].
  - destruct (Z.ltb_spec s' s); destruct (Z.ltb_spec e e'); cbn [orb].
    1-3: split; [discriminate|intros F; inversion F; subst; cbn [fst snd] in *; lia].
    rewrite IH by lia. split; [intros F; constructor; auto; cbn [fst snd]; lia|intros F; now inversion F].
Qed.

Lemma contains_pt_spec b p : length b = length p ->
  (contains_pt b p = true <-> Forall2 (fun i x => fst i <= x <= snd i) b p).
Proof.
  revert p. induction b as [|[s e] b IH]; intros [|x p] L; cbn [contains_pt length] in *; try discriminate.
  - split; [constructor|auto].
  - destruct (Z.ltb_spec x s); destruct (Z.ltb_spec e x); cbn [orb].
    1-3: split; [discriminate|intros F; inversion F; subst; cbn [fst snd] in *; lia].
    rewrite IH by lia. split; [intros F; constructor; auto; cbn [fst snd]; lia|intros F; now inversion F].
Qed.

Lemma contains_pt_mono b B p : inside b B -> length b = length p ->
  contains_pt b p = true -> contains_pt B p = true.
Proof.
  intros H L. rewrite !contains_pt_spec by (rewrite <- ?(inside_length _ _ H); auto). revert p L.
  induction H as [|i j b B Hij H IH]; intros p L F; inversion F; subst; constructor.
  - lia.
  - apply IH; auto.
Qed.

Lemma box_is_point_spec b p : box_is_point b p = true <-> b = map (fun x => (x, x)) p.
Proof.
  revert p. induction b as [|[s e] b IH]; intros [|x p]; cbn [box_is_point map]; try (split; congruence).
  rewrite !andb_true_iff, !Z.eqb_eq, IH. split; [intros [[-> ->] ->]; auto|].
  intros H. injection H. auto.
Qed.

Lemma point_contains p : contains_pt (map (fun x => (x, x)) p) p = true.
Proof.
  induction p as [|x p IH]; cbn [map contains_pt]; auto. now rewrite Z.ltb_irrefl.
Qed.
