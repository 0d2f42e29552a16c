(** Invariant of point_quad_tree and the specifications of its functions. *)

From Coq Require Import List ZArith Lia Bool Permutation.
From Verif Require Import Base PqtModel PqtSpec.
Import ListNotations.
Open Scope Z_scope.

Section P.
Context {V : Type}.
Implicit Types t d c : qt V.
Notation pt := (Z * Z * V)%type.

Definition key (p : pt) : Z * Z := fst p.
Definition keys (l : list pt) : list (Z * Z) := map key l.

Definition inq (x y : Z) (q : quad) (p : pt) : Prop :=
  get_quadrant x y (fst (fst p)) (snd (fst p)) = q /\ fst p <> (x, y).

Fixpoint wf t : Prop :=
  match t with
  | QE => True
  | QN _ x y _ ne nw se sw =>
      wf ne /\ wf nw /\ wf se /\ wf sw /\
      Forall (inq x y NE) (stored ne) /\ Forall (inq x y NW) (stored nw) /\
      Forall (inq x y SE) (stored se) /\ Forall (inq x y SW) (stored sw)
  end.

(** every parent pointer below the root leads back *)
Fixpoint linked t : Prop :=
  match t with
  | QE => True
  | QN k _ _ _ ne nw se sw => k = true /\ linked ne /\ linked nw /\ linked se /\ linked sw
  end.

Definition linked_below t : Prop := forall q, linked (child q t).

Definition lstored (l : list (qt V)) : list pt := flat_map stored l.

Lemma inq_iff x y q a b (v : V) :
  inq x y q (a, b, v) <->
  match q with
  | NE => x <= a /\ b < y
  | NW => a < x /\ b < y
  | SE => x <= a /\ y <= b /\ (a, b) <> (x, y)
  | SW => a < x /\ y <= b
  end.
Proof.
  unfold inq, get_quadrant. cbn [fst snd].
  destruct (Z.ltb_spec a x), (Z.ltb_spec b y); destruct q; split; intros H1;
    try (destruct H1 as [H1 H2]; discriminate);
    try (split; [reflexivity|intros E; inversion E; subst; lia]);
    repeat match goal with H : _ /\ _ |- _ => destruct H end; try lia;
    repeat split; try lia; auto.
Qed.

Lemma inq_excl x y q q' p : inq x y q p -> inq x y q' p -> q = q'.
Proof. intros [H _] [H' _]. congruence. Qed.

Lemma key_dec (p q : Z * Z) : {p = q} + {p <> q}.
Proof. destruct p, q. destruct (Z.eq_dec z z1), (Z.eq_dec z0 z2); subst; auto; right; congruence. Qed.

Lemma xy_eqb x y a b : (x =? a) && (y =? b) = true <-> (a, b) = (x, y).
Proof. rewrite andb_true_iff, !Z.eqb_eq. split; [intros []; subst; auto|intros E; inversion E; auto]. Qed.

Lemma xy_neqb x y a b : (x =? a) && (y =? b) = false <-> (a, b) <> (x, y).
Proof. rewrite <- not_true_iff_false, xy_eqb. reflexivity. Qed.

(** ** find *)

Lemma stored_in t p : In p (stored t) -> t <> QE.
Proof. destruct t; simpl; auto; discriminate. Qed.

Lemma find_node_in t a b : wf t ->
  match find_node a b t with
  | QE => forall v, ~ In (a, b, v) (stored t)
  | QN _ x y v _ _ _ _ => (x, y) = (a, b) /\ (forall w, In (a, b, w) (stored t) <-> w = v)
  end.
Proof.
  induction t as [|k x y v ne IH1 nw IH2 se IH3 sw IH4]; intros W; [simpl; auto|].
  cbn [find_node]. destruct W as (W1 & W2 & W3 & W4 & F1 & F2 & F3 & F4).
  assert (Hroot : forall q c, Forall (inq x y q) (stored c) -> forall w, In (a, b, w) (stored c) ->
            get_quadrant x y a b = q /\ (a, b) <> (x, y)).
  { intros q c F w Hi. rewrite Forall_forall in F. exact (F _ Hi). }
  destruct ((x =? a) && (y =? b)) eqn:E.
  - apply xy_eqb in E. split; [congruence|]. intros w. cbn [stored In]. rewrite !in_app_iff. split.
    + intros [H|H]; [congruence|].
      exfalso. destruct H as [H|[H|[H|H]]];
        eapply Hroot in H; try eassumption; destruct H as [_ H]; congruence.
    + intros ->. left. congruence.
  - apply xy_neqb in E.
    assert (S : forall w, In (a, b, w) (stored (QN k x y v ne nw se sw)) <->
              In (a, b, w) (stored (child (get_quadrant x y a b) (QN k x y v ne nw se sw)))).
    { intros w. cbn [stored In]. rewrite !in_app_iff. split.
      - intros [H|H]; [congruence|].
        destruct H as [H|[H|[H|H]]]; pose proof H as H';
          eapply Hroot in H; try eassumption; destruct H as [-> _]; exact H'.
      - destruct (get_quadrant x y a b); cbn [child]; auto. }
    destruct (get_quadrant x y a b) eqn:Q; cbn [child] in S.
    + specialize (IH1 W1). destruct (find_node a b ne); [|destruct IH1 as [IHa IHb]; split; [exact IHa|]];
        intros w; rewrite S; auto.
    + specialize (IH2 W2). destruct (find_node a b nw); [|destruct IH2 as [IHa IHb]; split; [exact IHa|]];
        intros w; rewrite S; auto.
    + specialize (IH3 W3). destruct (find_node a b se); [|destruct IH3 as [IHa IHb]; split; [exact IHa|]];
        intros w; rewrite S; auto.
    + specialize (IH4 W4). destruct (find_node a b sw); [|destruct IH4 as [IHa IHb]; split; [exact IHa|]];
        intros w; rewrite S; auto.
Qed.

Lemma find_ok t a b v : wf t -> find a b t = Ok v <-> In (a, b, v) (stored t).
Proof.
  intros W. pose proof (find_node_in t a b W) as H. unfold find.
  destruct (find_node a b t).
  - split; [discriminate|]. intros Hi. destruct (H _ Hi).
  - destruct H as [_ H]. rewrite H. split; congruence.
Qed.

Lemma find_none t a b : wf t -> (forall v, ~ In (a, b, v) (stored t)) -> find a b t = Throw E_general.
Proof.
  intros W N. pose proof (find_node_in t a b W) as H. unfold find.
  destruct (find_node a b t); auto. destruct H as [_ H]. exfalso. apply (N v). apply H. reflexivity.
Qed.

(** ** keys are distinct *)

Lemma nodup_app {A} (l r : list A) : NoDup (l ++ r) <-> NoDup l /\ NoDup r /\ (forall a, In a l -> ~ In a r).
Proof.
  induction l as [|a l IH]; simpl.
  - split; [intros H; repeat split; auto; constructor|intros (_ & H & _); auto].
  - split.
    + intros H. inversion H as [|? ? N D]; subst. apply IH in D. destruct D as (D1 & D2 & D3).
      rewrite in_app_iff in N. split; [constructor; tauto|]. split; auto.
      intros b [->|Hb]; auto.
    + intros (D1 & D2 & D3). inversion D1 as [|? ? N D]; subst. constructor.
      * rewrite in_app_iff. intros [H|H]; [tauto|]. exact (D3 a (or_introl eq_refl) H).
      * apply IH. repeat split; auto.
Qed.

Lemma wf_nodup t : wf t -> NoDup (keys (stored t)).
Proof.
  induction t as [|k x y v ne IH1 nw IH2 se IH3 sw IH4]; intros W; [constructor|].
  destruct W as (W1 & W2 & W3 & W4 & F1 & F2 & F3 & F4).
  assert (P : forall q c p, Forall (inq x y q) (stored c) -> In p (keys (stored c)) ->
            get_quadrant x y (fst p) (snd p) = q /\ p <> (x, y)).
  { intros q c p F H. unfold keys in H. apply in_map_iff in H. destruct H as (z & <- & H).
    rewrite Forall_forall in F. exact (F _ H). }
  cbn [stored]. unfold keys in *. cbn [map]. rewrite !map_app. constructor.
  - rewrite !in_app_iff. intros [H|[H|[H|H]]]; eapply P in H; try eassumption; destruct H as [_ H]; apply H; reflexivity.
  - repeat (apply nodup_app; split; [auto|split; [|]]); auto; intros p H; rewrite ?in_app_iff;
      eapply P in H; try eassumption; destruct H as [H _];
      intros H';
      repeat match goal with H : _ \/ _ |- _ => destruct H end;
      match goal with H' : In _ _ |- _ => eapply P in H'; try eassumption; destruct H' as [H' _] end; congruence.
Qed.

(** ** insert *)

Lemma insert_in t x y v p : wf t ->
  In p (stored (insert x y v t)) <-> p = (x, y, v) \/ (In p (stored t) /\ fst p <> (x, y)).
Proof.
  induction t as [|k cx cy cv ne IH1 nw IH2 se IH3 sw IH4]; intros W.
  - cbn. split; [intros [H|[]]; auto|intros [H|[[] _]]; auto].
  - destruct W as (W1 & W2 & W3 & W4 & F1 & F2 & F3 & F4). cbn [insert].
    assert (P : forall q c, Forall (inq cx cy q) (stored c) -> In p (stored c) ->
            get_quadrant cx cy (fst (fst p)) (snd (fst p)) = q /\ fst p <> (cx, cy)).
    { intros q c F H. rewrite Forall_forall in F. exact (F _ H). }
    destruct ((cx =? x) && (cy =? y)) eqn:E.
    + apply xy_eqb in E. inversion E; subst x y. cbn [stored In]. rewrite !in_app_iff. split.
      * intros [H|H]; [left; congruence|]. right. split; [right; auto|].
        destruct H as [H|[H|[H|H]]]; eapply P in H; try eassumption; tauto.
      * intros [->|[[H|H] N]]; [left; congruence| |right; auto]. subst p. cbn in N. congruence.
    + apply xy_neqb in E.
      assert (Q : forall q c, Forall (inq cx cy q) (stored c) -> In p (stored c) ->
              get_quadrant cx cy x y <> q -> fst p <> (x, y)).
      { intros q c F H N e. rewrite Forall_forall in F. destruct (F _ H) as [H1 _]. rewrite e in H1. auto. }
      destruct (get_quadrant cx cy x y) eqn:G; cbn [stored In]; rewrite !in_app_iff;
      rewrite ?IH1, ?IH2, ?IH3, ?IH4 by assumption;
      (split;
        [ intros H; repeat match type of H with _ \/ _ => destruct H as [H|H] end;
          try (left; assumption);
          try (right; split; [tauto|]);
          try (subst p; cbn [fst]; congruence);
          try tauto;
          try (apply (Q _ _ F1 H); congruence);
          try (apply (Q _ _ F2 H); congruence);
          try (apply (Q _ _ F3 H); congruence);
          try (apply (Q _ _ F4 H); congruence)
        | intros H; destruct H as [H|[H N]]; [tauto|];
          repeat match type of H with _ \/ _ => destruct H as [H|H] end; tauto ]).
Qed.

Lemma insert_wf t x y v : wf t -> wf (insert x y v t).
Proof.
  induction t as [|k cx cy cv ne IH1 nw IH2 se IH3 sw IH4]; intros W.
  - cbn. repeat split; constructor.
  - pose proof W as W0. destruct W as (W1 & W2 & W3 & W4 & F1 & F2 & F3 & F4). cbn [insert].
    destruct ((cx =? x) && (cy =? y)) eqn:E; [exact W0|]. apply xy_neqb in E.
    assert (Q : forall q c, wf c -> Forall (inq cx cy q) (stored c) -> get_quadrant cx cy x y = q ->
      Forall (inq cx cy q) (stored (insert x y v c))).
    { intros q c Wc F G. rewrite Forall_forall in *. intros p Hp. apply insert_in in Hp; auto.
      destruct Hp as [->|[Hp _]]; auto. split; auto. }
    destruct (get_quadrant cx cy x y) eqn:G; cbn [wf]; repeat (split; [auto|]); auto.
Qed.

Lemma insert_linked t x y v : linked t -> linked (insert x y v t).
Proof.
  induction t as [|k cx cy cv ne IH1 nw IH2 se IH3 sw IH4]; intros W; [cbn; auto|].
  destruct W as (W0 & W1 & W2 & W3 & W4). cbn [insert].
  destruct ((cx =? x) && (cy =? y)); [cbn; auto|].
  destruct (get_quadrant cx cy x y); cbn [linked]; auto 10.
Qed.

Lemma insert_linked_below t x y v : linked_below t -> linked_below (insert x y v t).
Proof.
  intros H q. destruct t as [|k cx cy cv ne nw se sw]; [destruct q; cbn; auto|].
  cbn [insert]. pose proof (H NE) as H1. pose proof (H NW) as H2. pose proof (H SE) as H3. pose proof (H SW) as H4.
  cbn [child] in *.
  destruct ((cx =? x) && (cy =? y)); [destruct q; auto|].
  destruct (get_quadrant cx cy x y), q; cbn [child]; auto using insert_linked.
Qed.

(** ** search_region *)

Definition in_window (x1 y1 x2 y2 : Z) (p : pt) : bool :=
  let '(x, y, _) := p in (x1 <=? x) && (x <=? x2) && (y1 <=? y) && (y <=? y2).

Lemma filter_none {A} (f : A -> bool) l : Forall (fun a => f a = false) l -> filter f l = [].
Proof. induction 1; simpl; auto. rewrite H. auto. Qed.

Lemma search_region_filter x1 y1 x2 y2 t : wf t ->
  search_region x1 y1 x2 y2 t = filter (in_window x1 y1 x2 y2) (stored t).
Proof.
  induction t as [|k x y v ne IH1 nw IH2 se IH3 sw IH4]; intros W; [reflexivity|].
  destruct W as (W1 & W2 & W3 & W4 & F1 & F2 & F3 & F4).
  specialize (IH1 W1). specialize (IH2 W2). specialize (IH3 W3). specialize (IH4 W4).
  cbn [search_region stored filter]. rewrite !filter_app, IH1, IH2, IH3, IH4.
  assert (Em : forall q c, Forall (inq x y q) (stored c) ->
     (forall a b w, inq x y q (a, b, w) -> in_window x1 y1 x2 y2 (a, b, w) = false) ->
     filter (in_window x1 y1 x2 y2) (stored c) = []).
  { intros q c F H. apply filter_none. rewrite Forall_forall in *. intros [[a b] w] Hp. apply H. apply F. exact Hp. }
  assert (B : forall a b w, in_window x1 y1 x2 y2 (a, b, w) = false <-> ~ (x1 <= a <= x2 /\ y1 <= b <= y2)).
  { intros a b w. rewrite <- not_true_iff_false. unfold in_window. rewrite !andb_true_iff, !Z.leb_le.
    split; intros H H'; apply H; lia. }
  assert (E : in_window x1 y1 x2 y2 (x, y, v) =
     match region_space x y x1 y1 x2 y2 with R_C => true | _ => false end).
  { unfold in_window, region_space.
    destruct (Z.ltb_spec x x1), (Z.ltb_spec y y1), (Z.leb_spec x1 x), (Z.leb_spec x x2),
      (Z.leb_spec y1 y), (Z.leb_spec y y2); cbn; auto; lia. }
  rewrite E. unfold region_space in *.
  destruct (Z.ltb_spec x x1), (Z.ltb_spec y y1), (Z.leb_spec x1 x), (Z.leb_spec x x2),
      (Z.leb_spec y1 y), (Z.leb_spec y y2); cbn [andb] in *; try lia;
  rewrite ?(Em NE ne F1) by (intros ? ? ? I; apply inq_iff in I; apply B; lia);
  rewrite ?(Em NW nw F2) by (intros ? ? ? I; apply inq_iff in I; apply B; lia);
  rewrite ?(Em SE se F3) by (intros ? ? ? I; apply inq_iff in I; apply B; lia);
  rewrite ?(Em SW sw F4) by (intros ? ? ? I; apply inq_iff in I; apply B; lia);
  rewrite ?app_nil_r; reflexivity.
Qed.

Lemma size_stored t : size t = length (stored t).
Proof.
  induction t as [|k x y v ne IH1 nw IH2 se IH3 sw IH4]; auto.
  cbn [size stored length]. rewrite !app_length. lia.
Qed.

End P.
