(** Specification of point_quad_tree::remove on well-formed trees. *)

From Coq Require Import List ZArith Lia Bool Permutation.
From Verif Require Import Base PqtModel PqtSpec PqtProofs.
Import ListNotations.
Open Scope Z_scope.

Lemma papp_nil {A} (l : list A) : l = l ++ []. Proof. symmetry; apply app_nil_r. Qed.
Lemma pcons {A} (a : A) l : a :: l = [a] ++ l. Proof. reflexivity. Qed.

Lemma perm_end {A} (l r : list A) : Permutation (l ++ []) (r ++ []) -> Permutation l r.
Proof. rewrite !app_nil_r. auto. Qed.

Ltac pfront a :=
  match goal with
  | |- Permutation _ (a ++ _) => idtac
  | |- Permutation _ ?R =>
      match R with context [?x ++ a ++ ?r] =>
        rewrite (Permutation_app_swap_app x a r); pfront a
      end
  end.

Ltac pcanon :=
  repeat match goal with
  | |- context [?a :: ?l] => lazymatch l with nil => fail | _ => rewrite (pcons a l) end
  end; rewrite <- ?app_assoc.

Ltac perm :=
  apply perm_end; pcanon; rewrite ?app_nil_l;
  repeat match goal with
  | |- Permutation ?l ?l => reflexivity
  | |- Permutation (?a ++ _) _ => pfront a; apply Permutation_app_head
  end.

Section P.
Context {V : Type}.
Implicit Types t d c : qt V.
Notation pt := (Z * Z * V)%type.

Lemma keys_app (a b : list pt) : keys (a ++ b) = keys a ++ keys b.
Proof. apply map_app. Qed.

Lemma perm_keys (a b : list pt) : Permutation a b -> Permutation (keys a) (keys b).
Proof. apply Permutation_map. Qed.

Lemma perm_forall {A} (P : A -> Prop) a b : Permutation a b -> Forall P a -> Forall P b.
Proof. intros H F. rewrite Forall_forall in *. intros x Hx. apply F. eapply Permutation_in; [symmetry; exact H|exact Hx]. Qed.

(** ** insert_node is insert of a new point *)

Lemma insert_perm t x y v : ~ In (x, y) (keys (stored t)) ->
  insert_node x y v t = Ok (insert x y v t) /\
  Permutation (stored (insert x y v t)) ((x, y, v) :: stored t).
Proof.
  induction t as [|k cx cy cv ne IH1 nw IH2 se IH3 sw IH4]; intros N.
  - split; reflexivity.
  - cbn [stored] in N. unfold keys in *. cbn [map In] in N. rewrite !map_app, !in_app_iff in N.
    cbn [insert_node insert].
    destruct ((cx =? x) && (cy =? y)) eqn:E.
    { apply xy_eqb in E. exfalso. apply N. left. cbn. congruence. }
    destruct (get_quadrant cx cy x y).
    + destruct IH1 as [I1 I2]; [tauto|]. rewrite I1. split; [reflexivity|].
      cbn [stored]. rewrite I2. perm.
    + destruct IH2 as [I1 I2]; [tauto|]. rewrite I1. split; [reflexivity|].
      cbn [stored]. rewrite I2. perm.
    + destruct IH3 as [I1 I2]; [tauto|]. rewrite I1. split; [reflexivity|].
      cbn [stored]. rewrite I2. perm.
    + destruct IH4 as [I1 I2]; [tauto|]. rewrite I1. split; [reflexivity|].
      cbn [stored]. rewrite I2. perm.
Qed.

(** ** reinsert_tree *)

Definition root_of t : option (bool * Z * Z) :=
  match t with QE => None | QN k x y _ _ _ _ _ => Some (k, x, y) end.

Definition better (d d' : qt V) (new : list pt) : Prop :=
  (wf d -> wf d') /\ Permutation (stored d') (stored d ++ new) /\
  (linked_below d -> linked_below d').

Lemma reinsert_tree_spec r : forall d,
  NoDup (keys (stored d ++ stored r)) ->
  exists d', reinsert_tree d r = Ok d' /\ better d d' (stored r).
Proof.
  induction r as [|k x y v ne IH1 nw IH2 se IH3 sw IH4]; intros d N.
  - exists d. split; [reflexivity|]. repeat split; auto. rewrite app_nil_r. reflexivity.
  - cbn [reinsert_tree stored] in *.
    assert (N' : NoDup (keys ((((((stored d ++ stored ne) ++ stored nw) ++ stored se) ++ stored sw) ++ [(x, y, v)])))).
    { eapply Permutation_NoDup; [|exact N]. apply perm_keys. perm. }
    clear N. rename N' into N.
    rewrite keys_app, nodup_app in N. destruct N as (N & _ & D5).
    pose proof N as N4. rewrite keys_app, nodup_app in N. destruct N as (N3 & _ & _).
    pose proof N3 as N3'. rewrite keys_app, nodup_app in N3'. destruct N3' as (N2 & _ & _).
    pose proof N2 as N2'. rewrite keys_app, nodup_app in N2'. destruct N2' as (N1 & _ & _).
    destruct (IH1 d N1) as (d1 & E1 & A1 & P1 & L1). rewrite E1. cbn [bind].
    destruct (IH2 d1) as (d2 & E2 & A2 & P2 & L2).
    { eapply Permutation_NoDup; [apply perm_keys, Permutation_app_tail; symmetry; exact P1|exact N2]. }
    assert (P2' : Permutation (stored d2) ((stored d ++ stored ne) ++ stored nw)) by (rewrite P2, P1; reflexivity).
    rewrite E2. cbn [bind].
    destruct (IH3 d2) as (d3 & E3 & A3 & P3 & L3).
    { eapply Permutation_NoDup; [apply perm_keys, Permutation_app_tail; symmetry; exact P2'|exact N3]. }
    assert (P3' : Permutation (stored d3) (((stored d ++ stored ne) ++ stored nw) ++ stored se)) by (rewrite P3, P2'; reflexivity).
    rewrite E3. cbn [bind].
    destruct (IH4 d3) as (d4 & E4 & A4 & P4 & L4).
    { eapply Permutation_NoDup; [apply perm_keys, Permutation_app_tail; symmetry; exact P3'|exact N4]. }
    assert (P4' : Permutation (stored d4) ((((stored d ++ stored ne) ++ stored nw) ++ stored se) ++ stored sw)) by (rewrite P4, P3'; reflexivity).
    rewrite E4. cbn [bind].
    assert (F : ~ In (x, y) (keys (stored d4))).
    { intros H. eapply (Permutation_in _ (perm_keys _ _ P4')) in H. eapply D5 in H. apply H. left. reflexivity. }
    destruct (insert_perm d4 x y v F) as [E5 P5]. rewrite E5. eexists. split; [reflexivity|].
    split; [|split].
    + intros W. apply insert_wf. auto.
    + rewrite P5, P4'. perm.
    + intros W. apply insert_linked_below. auto.
Qed.

Lemma reinsert_list_spec l : forall d,
  NoDup (keys (stored d ++ lstored l)) ->
  exists d', reinsert_list d l = Ok d' /\ better d d' (lstored l).
Proof.
  induction l as [|t l IH]; intros d N.
  - exists d. split; [reflexivity|]. repeat split; auto. cbn. rewrite app_nil_r. reflexivity.
  - cbn [reinsert_list lstored flat_map] in *. fold (lstored l) in *. rewrite app_assoc in N.
    pose proof N as N'. rewrite keys_app, nodup_app in N'. destruct N' as (N1 & _).
    destruct (reinsert_tree_spec t d N1) as (d1 & E1 & A1 & P1 & L1). rewrite E1. cbn [bind].
    destruct (IH d1) as (d2 & E2 & A2 & P2 & L2).
    { eapply Permutation_NoDup; [apply perm_keys, Permutation_app_tail; symmetry; exact P1|exact N]. }
    exists d2. split; [exact E2|]. split; [auto|]. split; [|auto].
    rewrite P2, P1, app_assoc. reflexivity.
Qed.

(** ** adjust_quad *)

Definition before (dr : dir) (x0 x1 y0 y1 : Z) (p : pt) : Prop :=
  let '(a, b, _) := p in
  match dr with DS => b <= y1 | DN => y0 <= b | DW => x0 <= a | DE => a <= x1 end.

Definition beyond (dr : dir) (x0 x1 y0 y1 : Z) (p : pt) : Prop :=
  let '(a, b, _) := p in
  match dr with DS => b < y0 | DN => y1 < b | DW => x1 < a | DE => a < x0 end.

Lemma lstored_app (a b : list (qt V)) : lstored (a ++ b) = lstored a ++ lstored b.
Proof. apply flat_map_app. Qed.

Lemma forall_app_l {A} (P : A -> Prop) a b : Forall P (a ++ b) -> Forall P a.
Proof. rewrite Forall_app. tauto. Qed.

(** part of a permutation *)
Lemma perm_forall_l {A} (P : A -> Prop) (a b c : list A) : Permutation a (b ++ c) -> Forall P a -> Forall P b.
Proof. intros H F. eapply perm_forall in F; [|exact H]. eapply forall_app_l; exact F. Qed.

Definition adj_post (dr : dir) x0 x1 y0 y1 t l (r : qt V * list (qt V)) : Prop :=
  exists cut, snd r = l ++ cut /\
    Permutation (stored t) (stored (fst r) ++ lstored cut) /\
    (wf t -> wf (fst r)) /\
    (wf t -> Forall (before dr x0 x1 y0 y1) (stored t) ->
      Forall (beyond dr x0 x1 y0 y1) (stored (fst r))).

Lemma not_hatched x0 x1 y0 y1 x y : hatched x0 x1 y0 y1 x y = false ->
  (x < x0 \/ x1 < x) /\ (y < y0 \/ y1 < y).
Proof.
  unfold hatched. rewrite orb_false_iff, !andb_false_iff, !Z.leb_gt. lia.
Qed.

Ltac forall_pts := rewrite ?Forall_app in *; rewrite ?Forall_forall in *.

Lemma adjust_quad_spec dr x0 x1 y0 y1 t : forall l r,
  adjust_quad x0 x1 y0 y1 t dr l = Ok r -> adj_post dr x0 x1 y0 y1 t l r.
Proof.
  induction t as [|k x y v ne IH1 nw IH2 se IH3 sw IH4]; intros l r E.
  - injection E as <-. exists []. rewrite app_nil_r. split; [reflexivity|].
    split; [reflexivity|]. split; [cbn; auto|]. intros _ _. constructor.
  - cbn [adjust_quad] in E. destruct (hatched x0 x1 y0 y1 x y) eqn:Hh.
    { destruct k; [|discriminate]. injection E as <-. exists [QN true x y v ne nw se sw].
      split; [reflexivity|]. split; [cbn; rewrite app_nil_r; reflexivity|].
      split; [cbn; auto|]. intros _ _. constructor. }
    apply not_hatched in Hh.
    destruct dr.
    + (* DN *)
      destruct (adjust_quad x0 x1 y0 y1 ne DN l) as [[ne' l1]| |] eqn:E1; try discriminate.
      destruct (IH1 _ _ E1) as (c1 & H1 & P1 & W1 & B1). cbn [fst snd bind] in *.
      destruct (adjust_quad x0 x1 y0 y1 nw DN l1) as [[nw' l2]| |] eqn:E2; try discriminate.
      destruct (IH2 _ _ E2) as (c2 & H2 & P2 & W2 & B2). cbn [fst snd bind] in *.
      injection E as <-. exists (c1 ++ c2). cbn [fst snd].
      split; [subst; rewrite app_assoc; reflexivity|].
      split; [cbn [stored]; rewrite lstored_app, P1, P2; perm|].
      split.
      * intros (A1 & A2 & A3 & A4 & F1 & F2 & F3 & F4). cbn [wf].
        repeat (split; [auto|]); auto; repeat split; eauto using perm_forall_l.
      * intros (A1 & A2 & A3 & A4 & F1 & F2 & F3 & F4) Hb. cbn [stored] in *.
        inversion Hb as [|? ? Hb0 Hb1]; subst. rewrite !Forall_app in Hb1. destruct Hb1 as (Hb1 & Hb2 & Hb3 & Hb4).
        cbn [before] in Hb0.
        constructor; [cbn [beyond]; lia|]. rewrite !Forall_app. split; [auto|]. split; [auto|].
        clear - Hb0 Hh F3 F4.
        split; rewrite Forall_forall in *; intros [[a b] w] Hi;
          [apply F3, inq_iff in Hi|apply F4, inq_iff in Hi]; cbn [beyond]; lia.
    + (* DW *)
      destruct (adjust_quad x0 x1 y0 y1 nw DW l) as [[nw' l1]| |] eqn:E1; try discriminate.
      destruct (IH2 _ _ E1) as (c1 & H1 & P1 & W1 & B1). cbn [fst snd bind] in *.
      destruct (adjust_quad x0 x1 y0 y1 sw DW l1) as [[sw' l2]| |] eqn:E2; try discriminate.
      destruct (IH4 _ _ E2) as (c2 & H2 & P2 & W2 & B2). cbn [fst snd bind] in *.
      injection E as <-. exists (c1 ++ c2). cbn [fst snd].
      split; [subst; rewrite app_assoc; reflexivity|].
      split; [cbn [stored]; rewrite lstored_app, P1, P2; perm|].
      split.
      * intros (A1 & A2 & A3 & A4 & F1 & F2 & F3 & F4). cbn [wf].
        repeat (split; [auto|]); auto; repeat split; eauto using perm_forall_l.
      * intros (A1 & A2 & A3 & A4 & F1 & F2 & F3 & F4) Hb. cbn [stored] in *.
        inversion Hb as [|? ? Hb0 Hb1]; subst. rewrite !Forall_app in Hb1. destruct Hb1 as (Hb1 & Hb2 & Hb3 & Hb4).
        cbn [before] in Hb0.
        constructor; [cbn [beyond]; lia|]. rewrite !Forall_app.
        clear IH1 IH2 IH3 IH4.
        split; [|split; [auto|split; [|auto]]];
        clear - Hb0 Hh F1 F3;
        rewrite Forall_forall in *; intros [[a b] w] Hi;
          [apply F1, inq_iff in Hi|apply F3, inq_iff in Hi]; cbn [beyond]; lia.
    + (* DS *)
      destruct (adjust_quad x0 x1 y0 y1 se DS l) as [[se' l1]| |] eqn:E1; try discriminate.
      destruct (IH3 _ _ E1) as (c1 & H1 & P1 & W1 & B1). cbn [fst snd bind] in *.
      destruct (adjust_quad x0 x1 y0 y1 sw DS l1) as [[sw' l2]| |] eqn:E2; try discriminate.
      destruct (IH4 _ _ E2) as (c2 & H2 & P2 & W2 & B2). cbn [fst snd bind] in *.
      injection E as <-. exists (c1 ++ c2). cbn [fst snd].
      split; [subst; rewrite app_assoc; reflexivity|].
      split; [cbn [stored]; rewrite lstored_app, P1, P2; perm|].
      split.
      * intros (A1 & A2 & A3 & A4 & F1 & F2 & F3 & F4). cbn [wf].
        repeat (split; [auto|]); auto; repeat split; eauto using perm_forall_l.
      * intros (A1 & A2 & A3 & A4 & F1 & F2 & F3 & F4) Hb. cbn [stored] in *.
        inversion Hb as [|? ? Hb0 Hb1]; subst. rewrite !Forall_app in Hb1. destruct Hb1 as (Hb1 & Hb2 & Hb3 & Hb4).
        cbn [before] in Hb0.
        constructor; [cbn [beyond]; lia|]. rewrite !Forall_app.
        clear IH1 IH2 IH3 IH4.
        split; [|split; [|split; [auto|auto]]];
        clear - Hb0 Hh F1 F2;
        rewrite Forall_forall in *; intros [[a b] w] Hi;
          [apply F1, inq_iff in Hi|apply F2, inq_iff in Hi]; cbn [beyond]; lia.
    + (* DE *)
      destruct (adjust_quad x0 x1 y0 y1 ne DE l) as [[ne' l1]| |] eqn:E1; try discriminate.
      destruct (IH1 _ _ E1) as (c1 & H1 & P1 & W1 & B1). cbn [fst snd bind] in *.
      destruct (adjust_quad x0 x1 y0 y1 se DE l1) as [[se' l2]| |] eqn:E2; try discriminate.
      destruct (IH3 _ _ E2) as (c2 & H2 & P2 & W2 & B2). cbn [fst snd bind] in *.
      injection E as <-. exists (c1 ++ c2). cbn [fst snd].
      split; [subst; rewrite app_assoc; reflexivity|].
      split; [cbn [stored]; rewrite lstored_app, P1, P2; perm|].
      split.
      * intros (A1 & A2 & A3 & A4 & F1 & F2 & F3 & F4). cbn [wf].
        repeat (split; [auto|]); auto; repeat split; eauto using perm_forall_l.
      * intros (A1 & A2 & A3 & A4 & F1 & F2 & F3 & F4) Hb. cbn [stored] in *.
        inversion Hb as [|? ? Hb0 Hb1]; subst. rewrite !Forall_app in Hb1. destruct Hb1 as (Hb1 & Hb2 & Hb3 & Hb4).
        cbn [before] in Hb0.
        constructor; [cbn [beyond]; lia|]. rewrite !Forall_app.
        clear IH1 IH2 IH3 IH4.
        split; [auto|]; split; [|split; [auto|]];
        clear - Hb0 Hh F2 F4;
        rewrite Forall_forall in *; intros [[a b] w] Hi;
          [apply F2, inq_iff in Hi|apply F4, inq_iff in Hi]; cbn [beyond]; lia.
Qed.

Lemma adjust_quad_total dr x0 x1 y0 y1 t : linked t -> forall l,
  exists t' l', adjust_quad x0 x1 y0 y1 t dr l = Ok (t', l') /\ linked t'.
Proof.
  induction t as [|k x y v ne IH1 nw IH2 se IH3 sw IH4]; intros L l.
  - exists QE, l. split; [reflexivity|exact I].
  - destruct L as (-> & L1 & L2 & L3 & L4). cbn [adjust_quad].
    destruct (hatched x0 x1 y0 y1 x y).
    { eexists _, _. split; [reflexivity|exact I]. }
    destruct dr.
    + destruct (IH1 L1 l) as (a & la & E & La). rewrite E. cbn [bind].
      destruct (IH2 L2 la) as (b & lb & E' & Lb). rewrite E'. cbn [bind].
      eexists _, _. split; [reflexivity|]. cbn; auto.
    + destruct (IH2 L2 l) as (a & la & E & La). rewrite E. cbn [bind].
      destruct (IH4 L4 la) as (b & lb & E' & Lb). rewrite E'. cbn [bind].
      eexists _, _. split; [reflexivity|]. cbn; auto 10.
    + destruct (IH3 L3 l) as (a & la & E & La). rewrite E. cbn [bind].
      destruct (IH4 L4 la) as (b & lb & E' & Lb). rewrite E'. cbn [bind].
      eexists _, _. split; [reflexivity|]. cbn; auto 10.
    + destruct (IH1 L1 l) as (a & la & E & La). rewrite E. cbn [bind].
      destruct (IH3 L3 la) as (b & lb & E' & Lb). rewrite E'. cbn [bind].
      eexists _, _. split; [reflexivity|]. cbn; auto 10.
Qed.

(** a tree whose points are all in the hatched region is cut whole *)
Lemma adjust_quad_all dr x0 x1 y0 y1 t l r :
  (forall a b w, In (a, b, w) (stored t) -> hatched x0 x1 y0 y1 a b = true) ->
  adjust_quad x0 x1 y0 y1 t dr l = Ok r -> fst r = QE.
Proof.
  destruct t as [|k x y v ne nw se sw]; intros H E.
  - injection E as <-. reflexivity.
  - cbn [adjust_quad] in E. rewrite (H x y v) in E by (left; reflexivity).
    destruct k; [|discriminate]. injection E as <-. reflexivity.
Qed.

(** ** the walk to the replacement *)

Lemma last_in_eq q t : last_in q t =
  match child q t with QE => t | c => last_in q c end.
Proof.
  destruct t as [|k x y v ne nw se sw]; [destruct q; reflexivity|]. destruct q; cbn [child];
  match goal with |- _ = match ?c with _ => _ end => destruct c; reflexivity end.
Qed.

Lemma last_in_cons q t : child q t <> QE -> last_in q t = last_in q (child q t).
Proof. rewrite (last_in_eq q t). destruct (child q t); [congruence|reflexivity]. Qed.

Lemma last_in_end q t : child q t = QE -> last_in q t = t.
Proof. rewrite (last_in_eq q t). intros ->. reflexivity. Qed.

Lemma child_ind q (P : qt V -> Prop) :
  (forall t, child q t = QE -> P t) ->
  (forall t, child q t <> QE -> P (child q t) -> P t) -> forall t, P t.
Proof.
  intros H0 H1 t. induction t as [|k x y v ne IH1 nw IH2 se IH3 sw IH4].
  - apply H0. reflexivity.
  - assert (D : forall c, {c = (QE : qt V)} + {c <> QE}) by (intros [|]; [left; auto|right; discriminate]).
    destruct (D (child q (QN k x y v ne nw se sw))) as [E|E]; [auto|].
    apply H1; [exact E|]. destruct q; cbn [child]; assumption.
Qed.

Lemma last_in_child q t : child q (last_in q t) = QE.
Proof.
  revert t. apply (child_ind q).
  - intros t E. rewrite last_in_end; auto.
  - intros t N IH. rewrite last_in_cons; auto.
Qed.

Lemma last_in_node q t : t <> QE -> last_in q t <> QE.
Proof.
  revert t. apply (child_ind q (fun t => t <> QE -> last_in q t <> QE)).
  - intros t E N. rewrite last_in_end; auto.
  - intros t N IH _. rewrite last_in_cons; auto.
Qed.

Lemma stored_child q t p : In p (stored (child q t)) -> In p (stored t).
Proof.
  destruct t as [|k x y v ne nw se sw]; [destruct q; auto|]. cbn [stored In]. rewrite !in_app_iff.
  destruct q; cbn [child]; tauto.
Qed.

Lemma stored_last q t p : In p (stored (last_in q t)) -> In p (stored t).
Proof.
  revert t. apply (child_ind q (fun t => In p (stored (last_in q t)) -> In p (stored t))).
  - intros t E. rewrite last_in_end; auto.
  - intros t N IH. rewrite last_in_cons by assumption. intros H. apply (stored_child q). auto.
Qed.

Lemma wf_child q t : wf t -> wf (child q t).
Proof. destruct t; [destruct q; auto|]. intros (A1 & A2 & A3 & A4 & _). destruct q; auto. Qed.

Lemma wf_last q t : wf t -> wf (last_in q t).
Proof.
  revert t. apply (child_ind q (fun t => wf t -> wf (last_in q t))).
  - intros t E. rewrite last_in_end; auto.
  - intros t N IH W. rewrite last_in_cons by assumption. apply IH, wf_child, W.
Qed.

(** the nodes of the walk other than the last, with their other subtrees *)
Fixpoint lost_of (q : quad) t : list pt :=
  match t with
  | QE => []
  | QN _ x y v ne nw se sw =>
      match q with
      | NE => match ne with QE => [] | _ => (x, y, v) :: stored nw ++ stored se ++ stored sw ++ lost_of q ne end
      | NW => match nw with QE => [] | _ => (x, y, v) :: stored ne ++ stored se ++ stored sw ++ lost_of q nw end
      | SE => match se with QE => [] | _ => (x, y, v) :: stored ne ++ stored nw ++ stored sw ++ lost_of q se end
      | SW => match sw with QE => [] | _ => (x, y, v) :: stored ne ++ stored nw ++ stored se ++ lost_of q sw end
      end
  end.

Lemma lost_of_end q t : child q t = QE -> lost_of q t = [].
Proof. destruct t; [reflexivity|]. destruct q; cbn [child lost_of]; intros ->; reflexivity. Qed.

Lemma lost_of_root q k x y v ne nw se sw : child q (QN k x y v ne nw se sw) <> QE ->
  In (x, y, v) (lost_of q (QN k x y v ne nw se sw)).
Proof.
  destruct q; cbn [child lost_of]; intros H;
  match goal with |- In _ (match ?c with _ => _ end) => destruct c; [congruence|left; reflexivity] end.
Qed.

Lemma lost_of_perm q t : Permutation (stored t) (lost_of q t ++ stored (last_in q t)).
Proof.
  induction t as [|k x y v ne IH1 nw IH2 se IH3 sw IH4]; [reflexivity|].
  rewrite last_in_eq. cbn [lost_of child].
  destruct q.
  - destruct ne; [reflexivity|]. cbn [stored] in *.
    set (n := QN _ _ _ _ _ _ _ _) in *. cbn [stored]. rewrite IH1. perm.
  - destruct nw; [reflexivity|]. set (n := QN _ _ _ _ _ _ _ _) in *. cbn [stored]. rewrite IH2. perm.
  - destruct se; [reflexivity|]. set (n := QN _ _ _ _ _ _ _ _) in *. cbn [stored]. rewrite IH3. perm.
  - destruct sw; [reflexivity|]. set (n := QN _ _ _ _ _ _ _ _) in *. cbn [stored]. rewrite IH4. perm.
Qed.

End P.
