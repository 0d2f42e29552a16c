(** point_quad_tree::remove, continued: the replacement and the whole call. *)

From Coq Require Import List ZArith Lia Bool Permutation.
From Verif Require Import Base PqtModel PqtSpec PqtProofs PqtRemove.
Import ListNotations.
Open Scope Z_scope.

Section P.
Context {V : Type}.
Implicit Types t d c : qt V.
Notation pt := (Z * Z * V)%type.

(** ** set_new_root *)

(** [r'] is [r] with its side subtrees adjusted *)
Definition same_end (x0 x1 y0 y1 : Z) (dr : quad) (r r' : qt V) : Prop :=
  match r, r' with
  | QN k x y v _ _ _ _, QN k' x' y' v' _ _ _ _ =>
      k = k' /\ x = x' /\ y = y' /\ v = v' /\ child (opposite dr) r = child (opposite dr) r' /\
      (exists (d1 : dir) l1 l1', adjust_quad x0 x1 y0 y1 (child (fst (sides dr)) r) d1 l1
                         = Ok (child (fst (sides dr)) r', l1')) /\
      (exists (d2 : dir) l2 l2', adjust_quad x0 x1 y0 y1 (child (snd (sides dr)) r) d2 l2
                         = Ok (child (snd (sides dr)) r', l2'))
  | QE, QE => True
  | _, _ => False
  end.

Definition snr_post x0 x1 y0 y1 (dr : quad) t l (r : qt V * list (qt V)) : Prop :=
  exists cut, snd r = l ++ cut /\
    Permutation (stored t) (stored (fst r) ++ lstored cut) /\
    (wf t -> wf (fst r)) /\
    (child dr t = QE <-> child dr (fst r) = QE) /\
    (forall k x y v ne nw se sw, t = QN k x y v ne nw se sw ->
       exists ne' nw' se' sw', fst r = QN k x y v ne' nw' se' sw') /\
    same_end x0 x1 y0 y1 dr (last_in dr t) (last_in dr (fst r)).

Lemma QN_not_QE k x y v ne nw se sw : QN k x y v ne nw se sw <> (QE : qt V).
Proof. discriminate. Qed.

Lemma snr_child x0 x1 y0 y1 dr t l r : snr_post x0 x1 y0 y1 dr t l r -> (t = QE <-> fst r = QE).
Proof.
  intros (cut & _ & P & _ & _ & R & _). destruct t as [|k x y v ne nw se sw].
  - cbn in P. apply Permutation_nil in P. destruct (fst r); [tauto|discriminate].
  - destruct (R _ _ _ _ _ _ _ _ eq_refl) as (? & ? & ? & ? & ->). split; discriminate.
Qed.

Lemma set_new_root_spec x0 x1 y0 y1 dr t : forall l r,
  set_new_root x0 x1 y0 y1 t dr l = Ok r -> snr_post x0 x1 y0 y1 dr t l r.
Proof.
  induction t as [|k x y v ne IH1 nw IH2 se IH3 sw IH4]; intros l r E.
  - injection E as <-. exists []. rewrite app_nil_r. cbn [fst snd].
    split; [reflexivity|]. split; [reflexivity|]. split; [cbn; auto|].
    split; [tauto|]. split; [discriminate|]. cbn. exact I.
  - cbn [set_new_root] in E. destruct dr.
    + destruct (adjust_quad x0 x1 y0 y1 se DE l) as [[ta l1]| |] eqn:E1; try discriminate.
      destruct (adjust_quad_spec _ _ _ _ _ _ _ _ E1) as (c1 & H1 & P1 & W1 & _). cbn [fst snd bind] in *.
      destruct (adjust_quad x0 x1 y0 y1 nw DN l1) as [[tb l2]| |] eqn:E2; try discriminate.
      destruct (adjust_quad_spec _ _ _ _ _ _ _ _ E2) as (c2 & H2 & P2 & W2 & _). cbn [fst snd bind] in *.
      destruct (set_new_root x0 x1 y0 y1 ne NE l2) as [[tc l3]| |] eqn:E3; try discriminate.
      pose proof (IH1 _ _ E3) as IH. pose proof (snr_child _ _ _ _ _ _ _ _ IH) as Hc.
      destruct IH as (c3 & H3 & P3 & W3 & C3 & _ & S3). cbn [fst snd bind] in *.
      injection E as <-. exists (c1 ++ c2 ++ c3). cbn [fst snd].
      split; [subst; rewrite <- !app_assoc; reflexivity|].
      split; [cbn [stored]; rewrite !lstored_app, P1, P2, P3; perm|].
      split.
      { intros (A1 & A2 & A3 & A4 & F1 & F2 & F3 & F4). cbn [wf].
        repeat (split; [auto|]); auto; repeat split; eauto using perm_forall_l. }
      split; [exact Hc|].
      split; [intros ? ? ? ? ? ? ? ? Eq; injection Eq as <- <- <- <- <- <- <- <-; eauto|].
      destruct ne as [|kn xn yn vn nen nwn sen swn].
      * rewrite (proj1 Hc eq_refl). rewrite !last_in_end by reflexivity. cbn. eauto 15.
      * destruct tc as [|kc xc yc vc nec nwc sec swc]; [discriminate (proj2 Hc eq_refl)|].
        rewrite (last_in_cons NE (QN k x y v _ _ _ _)) by discriminate.
        rewrite (last_in_cons NE (QN k x y v _ _ _ _)) by discriminate.
        exact S3.
    + destruct (adjust_quad x0 x1 y0 y1 ne DN l) as [[ta l1]| |] eqn:E1; try discriminate.
      destruct (adjust_quad_spec _ _ _ _ _ _ _ _ E1) as (c1 & H1 & P1 & W1 & _). cbn [fst snd bind] in *.
      destruct (adjust_quad x0 x1 y0 y1 sw DW l1) as [[tb l2]| |] eqn:E2; try discriminate.
      destruct (adjust_quad_spec _ _ _ _ _ _ _ _ E2) as (c2 & H2 & P2 & W2 & _). cbn [fst snd bind] in *.
      destruct (set_new_root x0 x1 y0 y1 nw NW l2) as [[tc l3]| |] eqn:E3; try discriminate.
      pose proof (IH2 _ _ E3) as IH. pose proof (snr_child _ _ _ _ _ _ _ _ IH) as Hc.
      destruct IH as (c3 & H3 & P3 & W3 & C3 & _ & S3). cbn [fst snd bind] in *.
      injection E as <-. exists (c1 ++ c2 ++ c3). cbn [fst snd].
      split; [subst; rewrite <- !app_assoc; reflexivity|].
      split; [cbn [stored]; rewrite !lstored_app, P1, P2, P3; perm|].
      split.
      { intros (A1 & A2 & A3 & A4 & F1 & F2 & F3 & F4). cbn [wf].
        repeat (split; [auto|]); auto; repeat split; eauto using perm_forall_l. }
      split; [exact Hc|].
      split; [intros ? ? ? ? ? ? ? ? Eq; injection Eq as <- <- <- <- <- <- <- <-; eauto|].
      destruct nw as [|kn xn yn vn nen nwn sen swn].
      * rewrite (proj1 Hc eq_refl). rewrite !last_in_end by reflexivity. cbn. eauto 15.
      * destruct tc as [|kc xc yc vc nec nwc sec swc]; [discriminate (proj2 Hc eq_refl)|].
        rewrite (last_in_cons NW (QN k x y v _ _ _ _)) by discriminate.
        rewrite (last_in_cons NW (QN k x y v _ _ _ _)) by discriminate.
        exact S3.
    + destruct (adjust_quad x0 x1 y0 y1 ne DE l) as [[ta l1]| |] eqn:E1; try discriminate.
      destruct (adjust_quad_spec _ _ _ _ _ _ _ _ E1) as (c1 & H1 & P1 & W1 & _). cbn [fst snd bind] in *.
      destruct (adjust_quad x0 x1 y0 y1 sw DS l1) as [[tb l2]| |] eqn:E2; try discriminate.
      destruct (adjust_quad_spec _ _ _ _ _ _ _ _ E2) as (c2 & H2 & P2 & W2 & _). cbn [fst snd bind] in *.
      destruct (set_new_root x0 x1 y0 y1 se SE l2) as [[tc l3]| |] eqn:E3; try discriminate.
      pose proof (IH3 _ _ E3) as IH. pose proof (snr_child _ _ _ _ _ _ _ _ IH) as Hc.
      destruct IH as (c3 & H3 & P3 & W3 & C3 & _ & S3). cbn [fst snd bind] in *.
      injection E as <-. exists (c1 ++ c2 ++ c3). cbn [fst snd].
      split; [subst; rewrite <- !app_assoc; reflexivity|].
      split; [cbn [stored]; rewrite !lstored_app, P1, P2, P3; perm|].
      split.
      { intros (A1 & A2 & A3 & A4 & F1 & F2 & F3 & F4). cbn [wf].
        repeat (split; [auto|]); auto; repeat split; eauto using perm_forall_l. }
      split; [exact Hc|].
      split; [intros ? ? ? ? ? ? ? ? Eq; injection Eq as <- <- <- <- <- <- <- <-; eauto|].
      destruct se as [|kn xn yn vn nen nwn sen swn].
      * rewrite (proj1 Hc eq_refl). rewrite !last_in_end by reflexivity. cbn. eauto 15.
      * destruct tc as [|kc xc yc vc nec nwc sec swc]; [discriminate (proj2 Hc eq_refl)|].
        rewrite (last_in_cons SE (QN k x y v _ _ _ _)) by discriminate.
        rewrite (last_in_cons SE (QN k x y v _ _ _ _)) by discriminate.
        exact S3.
    + destruct (adjust_quad x0 x1 y0 y1 nw DW l) as [[ta l1]| |] eqn:E1; try discriminate.
      destruct (adjust_quad_spec _ _ _ _ _ _ _ _ E1) as (c1 & H1 & P1 & W1 & _). cbn [fst snd bind] in *.
      destruct (adjust_quad x0 x1 y0 y1 se DS l1) as [[tb l2]| |] eqn:E2; try discriminate.
      destruct (adjust_quad_spec _ _ _ _ _ _ _ _ E2) as (c2 & H2 & P2 & W2 & _). cbn [fst snd bind] in *.
      destruct (set_new_root x0 x1 y0 y1 sw SW l2) as [[tc l3]| |] eqn:E3; try discriminate.
      pose proof (IH4 _ _ E3) as IH. pose proof (snr_child _ _ _ _ _ _ _ _ IH) as Hc.
      destruct IH as (c3 & H3 & P3 & W3 & C3 & _ & S3). cbn [fst snd bind] in *.
      injection E as <-. exists (c1 ++ c2 ++ c3). cbn [fst snd].
      split; [subst; rewrite <- !app_assoc; reflexivity|].
      split; [cbn [stored]; rewrite !lstored_app, P1, P2, P3; perm|].
      split.
      { intros (A1 & A2 & A3 & A4 & F1 & F2 & F3 & F4). cbn [wf].
        repeat (split; [auto|]); auto; repeat split; eauto using perm_forall_l. }
      split; [exact Hc|].
      split; [intros ? ? ? ? ? ? ? ? Eq; injection Eq as <- <- <- <- <- <- <- <-; eauto|].
      destruct sw as [|kn xn yn vn nen nwn sen swn].
      * rewrite (proj1 Hc eq_refl). rewrite !last_in_end by reflexivity. cbn. eauto 15.
      * destruct tc as [|kc xc yc vc nec nwc sec swc]; [discriminate (proj2 Hc eq_refl)|].
        rewrite (last_in_cons SW (QN k x y v _ _ _ _)) by discriminate.
        rewrite (last_in_cons SW (QN k x y v _ _ _ _)) by discriminate.
        exact S3.
Qed.

Lemma set_new_root_total x0 x1 y0 y1 dr t : linked t -> forall l,
  exists t' l', set_new_root x0 x1 y0 y1 t dr l = Ok (t', l').
Proof.
  induction t as [|k x y v ne IH1 nw IH2 se IH3 sw IH4]; intros L l; [eexists _, _; reflexivity|].
  destruct L as (_ & L1 & L2 & L3 & L4). cbn [set_new_root].
  assert (A : forall c (d : dir) l, linked c -> exists t' l', adjust_quad x0 x1 y0 y1 c d l = Ok (t', l')).
  { intros c d0 l0 Lc. destruct (adjust_quad_total d0 x0 x1 y0 y1 c Lc l0) as (t' & l' & E & _). eauto. }
  destruct dr.
  - destruct (A se DE l L3) as (a & la & ->). cbn [bind].
    destruct (A nw DN la L2) as (b & lb & ->). cbn [bind].
    destruct (IH1 L1 lb) as (e & le & ->). cbn [bind]. eauto.
  - destruct (A ne DN l L1) as (a & la & ->). cbn [bind].
    destruct (A sw DW la L4) as (b & lb & ->). cbn [bind].
    destruct (IH2 L2 lb) as (e & le & ->). cbn [bind]. eauto.
  - destruct (A ne DE l L1) as (a & la & ->). cbn [bind].
    destruct (A sw DS la L4) as (b & lb & ->). cbn [bind].
    destruct (IH3 L3 lb) as (e & le & ->). cbn [bind]. eauto.
  - destruct (A nw DW l L2) as (a & la & ->). cbn [bind].
    destruct (A se DS la L3) as (b & lb & ->). cbn [bind].
    destruct (IH4 L4 lb) as (e & le & ->). cbn [bind]. eauto.
Qed.

(** ** find_replacement *)

Definition is_cand (d : qt V) (q : quad) (rx ry : Z) : Prop :=
  exists k v ne nw se sw, last_in (opposite q) (child q d) = QN k rx ry v ne nw se sw.

Definition ok_cand d (o : option cand) : Prop :=
  match o with None => True | Some (q, _, rx, ry) => is_cand d q rx ry end.

Definition ok3 d (s : option cand * option cand * option cand) : Prop :=
  ok_cand d (fst (fst s)) /\ ok_cand d (snd (fst s)) /\ ok_cand d (snd s).

Lemma nearer_ok d o q e rx ry : ok_cand d o -> is_cand d q rx ry -> ok_cand d (nearer o (q, e, rx, ry)).
Proof.
  intros H1 H2. destruct o as [[[[q' e'] x'] y']|]; cbn [nearer]; [|exact H2].
  destruct (snd (fst (fst (q, e, rx, ry))) <? e'); [exact H2|exact H1].
Qed.

Lemma nearer_some o (c : cand) : nearer o c <> None.
Proof. destruct o as [[[[q e] x] y]|]; cbn; [|discriminate]. destruct (_ <? e); discriminate. Qed.

Lemma find_candidate_ok x y d q s : ok3 d s -> ok3 d (find_candidate x y d q s).
Proof.
  intros H. unfold find_candidate.
  destruct (last_in (opposite q) (child q d)) as [|k rx ry v ne nw se sw] eqn:E; [exact H|].
  assert (C : is_cand d q rx ry) by (unfold is_cand; rewrite E; eauto 10).
  destruct s as [[a b] c]. destruct H as (H1 & H2 & H3). cbn [fst snd] in *.
  repeat split; cbn [fst snd]; apply nearer_ok; auto.
Qed.

Lemma find_candidate_some x y d q s : snd s <> None -> snd (find_candidate x y d q s) <> None.
Proof.
  intros H. unfold find_candidate. destruct (last_in _ _); [exact H|].
  destruct s as [[a b] c]. cbn [snd]. apply nearer_some.
Qed.

Lemma find_candidate_new x y d q s : child q d <> QE -> snd (find_candidate x y d q s) <> None.
Proof.
  intros H. unfold find_candidate. apply (last_in_node (opposite q)) in H.
  destruct (last_in (opposite q) (child q d)); [congruence|].
  destruct s as [[a b] c]. cbn [snd]. apply nearer_some.
Qed.

Lemma find_replacement_ok x y d q rx ry :
  find_replacement x y d = Some (q, rx, ry) -> is_cand d q rx ry.
Proof.
  unfold find_replacement. intros H.
  assert (O : ok3 d (find_candidate x y d SE (find_candidate x y d SW
      (find_candidate x y d NW (find_candidate x y d NE (None, None, None)))))).
  { repeat apply find_candidate_ok. repeat split. }
  destruct (find_candidate x y d SE _) as [[a b] c]. destruct O as (O1 & O2 & O3). cbn [fst snd] in *.
  destruct a as [[[[qa ea] xa] ya]|].
  - destruct b as [[[[qb eb] xb] yb]|].
    + destruct (quad_eqb qa qb && _).
      * injection H as <- <- <-. exact O1.
      * destruct c as [[[[qc ec] xc] yc]|]; [|discriminate]. injection H as <- <- <-. exact O3.
    + destruct c as [[[[qc ec] xc] yc]|]; [|discriminate]. injection H as <- <- <-. exact O3.
  - destruct c as [[[[qc ec] xc] yc]|]; [|discriminate]. injection H as <- <- <-. exact O3.
Qed.

Lemma find_replacement_some x y d : d <> QE -> leaf d = false -> find_replacement x y d <> None.
Proof.
  intros N L.
  assert (C : exists q, child q d <> QE).
  { destruct d as [|k cx cy v ne nw se sw]; [congruence|].
    destruct ne; [|exists NE; discriminate]. destruct nw; [|exists NW; discriminate].
    destruct se; [|exists SE; discriminate]. destruct sw; [discriminate|exists SW; discriminate]. }
  unfold find_replacement.
  assert (O : snd (find_candidate x y d SE (find_candidate x y d SW
      (find_candidate x y d NW (find_candidate x y d NE (None, None, None))))) <> None).
  { destruct C as [[| | |] C].
    - apply find_candidate_some, find_candidate_some, find_candidate_some, find_candidate_new, C.
    - apply find_candidate_some, find_candidate_some, find_candidate_new, C.
    - apply find_candidate_new, C.
    - apply find_candidate_some, find_candidate_new, C. }
  destruct (find_candidate x y d SE _) as [[a b] c]. cbn [snd] in O.
  destruct c as [[[[qc ec] xc] yc]|]; [|congruence].
  destruct a as [[[[qa ea] xa] ya]|]; [|discriminate].
  destruct b as [[[[qb eb] xb] yb]|]; [|discriminate].
  destruct (quad_eqb qa qb && _); discriminate.
Qed.

Lemma wf_inq k x y (v : V) ne nw se sw q : wf (QN k x y v ne nw se sw) ->
  Forall (inq x y q) (stored (child q (QN k x y v ne nw se sw))).
Proof. intros (_ & _ & _ & _ & F1 & F2 & F3 & F4). destruct q; assumption. Qed.

Lemma cand_quad k x y (v : V) ne nw se sw q rx ry : wf (QN k x y v ne nw se sw) ->
  is_cand (QN k x y v ne nw se sw) q rx ry -> get_quadrant x y rx ry = q.
Proof.
  intros W (kr & rv & a & b & c & e & E).
  pose proof (wf_inq _ _ _ _ _ _ _ _ q W) as F. rewrite Forall_forall in F.
  destruct (F (rx, ry, rv)) as [H _]; [|exact H].
  apply (stored_last (opposite q)). rewrite E. left. reflexivity.
Qed.

(** ** remove_inner *)

Lemma stored_quads q k x y (v : V) ne nw se sw :
  let d := QN k x y v ne nw se sw in
  let '(qa, _, qb, _) := adjacent q in
  Permutation (stored d)
    ((x, y, v) :: stored (child q d) ++ stored (child (opposite q) d) ++ stored (child qa d) ++ stored (child qb d)).
Proof. destruct q; cbn [adjacent opposite child stored]; perm. Qed.

Lemma stored_set_link b t : stored (set_link b t) = stored t.
Proof. destruct t; reflexivity. Qed.

Lemma wf_set_link b t : wf t -> wf (set_link b t).
Proof. destruct t; auto. Qed.

Lemma reinsert_quad_nil d q : reinsert_quad d q QE = Ok d.
Proof. reflexivity. Qed.

(** the replacement's side subtrees lie in the hatched region *)
Lemma side_hatched x y q rx ry kr (rv : V) (t : qt V) r s :
  Forall (inq x y q) (stored t) -> wf t ->
  last_in (opposite q) t = r -> root_of r = Some (kr, rx, ry) ->
  In (rx, ry, rv) (stored t) ->
  s = fst (sides q) \/ s = snd (sides q) ->
  forall a b w, In (a, b, w) (stored (child s r)) ->
  hatched (Z.min x rx) (Z.max x rx) (Z.min y ry) (Z.max y ry) a b = true.
Proof.
  intros F W E R Hin S a b w Hi.
  assert (I1 : inq x y q (a, b, w)).
  { rewrite Forall_forall in F. apply F. apply (stored_last (opposite q)). rewrite E.
    apply (stored_child s), Hi. }
  assert (I2 : inq x y q (rx, ry, rv)).
  { rewrite Forall_forall in F. apply F. exact Hin. }
  assert (Wr : wf r) by (subst r; apply wf_last, W).
  assert (I3 : inq rx ry s (a, b, w)).
  { destruct r as [|k0 x0 y0 v0 ne nw se sw]; [discriminate|]. injection R as <- <- <-.
    pose proof (wf_inq _ _ _ _ _ _ _ _ s Wr) as G. rewrite Forall_forall in G. apply G, Hi. }
  apply inq_iff in I1, I2, I3. unfold hatched.
  rewrite orb_true_iff, !andb_true_iff, !Z.leb_le.
  destruct q; cbn [sides fst snd] in S; destruct S; subst s; lia.
Qed.

Lemma take_over_q q k x y (v : V) ne nw se sw kr rx ry (rv : V) (a b c e : qt V) :
  let r := QN kr rx ry rv a b c e in
  let d := QN k x y v ne nw se sw in
  take_over q d r = set_child q (set_link false (child q r)) (QN false rx ry rv ne nw se sw).
Proof. reflexivity. Qed.

Definition inner_post (d d' : qt V) : Prop :=
  match d with
  | QE => False
  | QN _ x y v _ _ _ _ =>
      wf d' /\
      exists q rx ry lost,
        find_replacement x y d = Some (q, rx, ry) /\
        Permutation (stored d) ((x, y, v) :: stored d' ++ lost) /\
        (child (opposite q) (child q d) = QE -> lost = []) /\
        (child (opposite q) (child q d) <> QE -> lost <> [])
  end.

(** the recycled node after taking over the replacement *)
Lemma taken_wf x y q rx ry (rv : V) k (v : V) ne nw se sw ta tb tq kr a b c e :
  let d := QN k x y v ne nw se sw in
  let '(qa, da, qb, db) := adjacent q in
  let x0 := Z.min x rx in let x1 := Z.max x rx in
  let y0 := Z.min y ry in let y1 := Z.max y ry in
  wf d -> wf ta -> wf tb -> wf (QN kr rx ry rv a b c e) ->
  inq x y q (rx, ry, rv) ->
  Forall (inq x y qa) (stored ta) -> Forall (beyond da x0 x1 y0 y1) (stored ta) ->
  Forall (inq x y qb) (stored tb) -> Forall (beyond db x0 x1 y0 y1) (stored tb) ->
  Forall (inq rx ry q) (stored tq) -> wf tq ->
  wf (set_child q tq (set_child qa ta (set_child qb tb (QN false rx ry rv ne nw se sw)))).
Proof.
  intros d. destruct q; cbn [adjacent]; intros Wd Wa Wb Wr Iq Fa Ba Fb Bb Fq Wq;
    cbn [set_child wf];
    destruct Wd as (W1 & W2 & W3 & W4 & F1 & F2 & F3 & F4);
    apply inq_iff in Iq; clear d;
    repeat (split; [assumption|]).
  all: repeat match goal with |- _ /\ _ => split end; try assumption.
  all: rewrite Forall_forall in *; intros [[p1 p2] pw] Hp; apply inq_iff.
  all: try (specialize (Fa _ Hp); specialize (Ba _ Hp); apply inq_iff in Fa; cbn [beyond] in Ba).
  all: try (specialize (Fb _ Hp); specialize (Bb _ Hp); apply inq_iff in Fb; cbn [beyond] in Bb).
  all: try (specialize (F1 _ Hp); apply inq_iff in F1).
  all: try (specialize (F2 _ Hp); apply inq_iff in F2).
  all: try (specialize (F3 _ Hp); apply inq_iff in F3).
  all: try (specialize (F4 _ Hp); apply inq_iff in F4).
  all: try lia.
  all: repeat split; try lia; intros Eq; injection Eq as -> ->; lia.
Qed.

Lemma before_adj x y q rx ry (rv : V) (p : pt) :
  inq x y q (rx, ry, rv) ->
  let '(qa, da, qb, db) := adjacent q in
  let x0 := Z.min x rx in let x1 := Z.max x rx in
  let y0 := Z.min y ry in let y1 := Z.max y ry in
  (inq x y qa p -> before da x0 x1 y0 y1 p) /\ (inq x y qb p -> before db x0 x1 y0 y1 p).
Proof.
  destruct p as [[a b] w].
  intros H. apply inq_iff in H. destruct q; cbn [adjacent before]; rewrite !inq_iff; lia.
Qed.

Lemma wf_side k x y (v : V) ne nw se sw q : wf (QN k x y v ne nw se sw) -> wf (child q (QN k x y v ne nw se sw)).
Proof. apply wf_child. Qed.

Lemma child_stored_only q k x y (v : V) ne nw se sw :
  let r := QN k x y v ne nw se sw in
  child (opposite q) r = QE -> child (fst (sides q)) r = QE -> child (snd (sides q)) r = QE ->
  stored r = (x, y, v) :: stored (child q r).
Proof.
  intros r. unfold r. destruct q; cbn [opposite sides fst snd child stored]; intros -> -> ->;
    cbn [stored app]; rewrite ?app_nil_r; reflexivity.
Qed.

Lemma sides_opposite q : sides (opposite q) = sides q.
Proof. destruct q; reflexivity. Qed.

Lemma opp_opp q : opposite (opposite q) = q.
Proof. destruct q; reflexivity. Qed.

Lemma set_child_root q c k x y (v : V) ne nw se sw k' x' y' (v' : V) :
  forall a b e f, set_child q c (QN k x y v ne nw se sw) = QN k x y v a b e f ->
  set_child q c (QN k' x' y' v' ne nw se sw) = QN k' x' y' v' a b e f.
Proof. destruct q; cbn [set_child]; intros a b e f H; injection H as <- <- <- <-; reflexivity. Qed.

(** the tree before the reinsertion of the cut subtrees *)
Lemma taken_shape q (d : qt V) k x y v ne nw se sw ta tb kr rx ry rv a b c e :
  d = QN k x y v ne nw se sw ->
  let '(qa, _, qb, _) := adjacent q in
  let r := QN kr rx ry rv a b c e in
  take_over q (set_child qa ta (set_child qb tb d)) r =
  set_child q (set_link false (child q r)) (set_child qa ta (set_child qb tb (QN false rx ry rv ne nw se sw))).
Proof. intros ->. destruct q; reflexivity. Qed.

Lemma taken_stored q rx ry (rv : V) ne nw se sw ta tb tq :
  let '(qa, _, qb, _) := adjacent q in
  let d := QN false rx ry rv ne nw se sw in
  Permutation (stored (set_child q tq (set_child qa ta (set_child qb tb d))))
    ((rx, ry, rv) :: stored tq ++ stored (child (opposite q) d) ++ stored ta ++ stored tb).
Proof. destruct q; cbn [adjacent opposite child set_child stored]; perm. Qed.

Lemma child_indep q k x y (v : V) k' x' y' (v' : V) ne nw se sw :
  child q (QN k x y v ne nw se sw) = child q (QN k' x' y' v' ne nw se sw).
Proof. destruct q; reflexivity. Qed.

Lemma remove_inner_cases k x y (v : V) ne nw se sw :
  let d := QN k x y v ne nw se sw in
  wf d -> leaf d = false ->
  exists q rx ry qa da qb db,
    find_replacement x y d = Some (q, rx, ry) /\ adjacent q = (qa, da, qb, db) /\
    let x0 := Z.min x rx in let x1 := Z.max x rx in
    let y0 := Z.min y ry in let y1 := Z.max y ry in
    (forall ta l1 tb l2 tq l3,
      adjust_quad x0 x1 y0 y1 (child qa d) da [] = Ok (ta, l1) ->
      adjust_quad x0 x1 y0 y1 (child qb d) db l1 = Ok (tb, l2) ->
      set_new_root x0 x1 y0 y1 (child q d) (opposite q) l2 = Ok (tq, l3) ->
      exists d', remove_inner d = Ok d' /\ inner_post d d') /\
    (forall d', remove_inner d = Ok d' -> exists ta l1 tb l2 tq l3,
      adjust_quad x0 x1 y0 y1 (child qa d) da [] = Ok (ta, l1) /\
      adjust_quad x0 x1 y0 y1 (child qb d) db l1 = Ok (tb, l2) /\
      set_new_root x0 x1 y0 y1 (child q d) (opposite q) l2 = Ok (tq, l3)).
Proof.
  intros d W L.
  destruct (find_replacement x y d) as [[[q rx] ry]|] eqn:Er.
  2:{ exfalso. exact (find_replacement_some x y d (QN_not_QE _ _ _ _ _ _ _ _) L Er). }
  pose proof (find_replacement_ok _ _ _ _ _ _ Er) as C.
  pose proof (cand_quad _ _ _ _ _ _ _ _ _ _ _ W C) as Q.
  destruct (adjacent q) as [[[qa da] qb] db] eqn:Ea.
  exists q, rx, ry, qa, da, qb, db. split; [reflexivity|]. split; [exact Ea|].
  assert (U : remove_inner d =
    let x0 := Z.min x rx in let x1 := Z.max x rx in
    let y0 := Z.min y ry in let y1 := Z.max y ry in
    let* (ta, l1) := adjust_quad x0 x1 y0 y1 (child qa d) da [] in
    let* (tb, l2) := adjust_quad x0 x1 y0 y1 (child qb d) db l1 in
    let* (tq, l3) := set_new_root x0 x1 y0 y1 (child q d) (opposite q) l2 in
    let d1 := set_child qa ta (set_child qb tb d) in
    let r := last_in (opposite q) tq in
    let '(s1, s2) := sides q in
    let* d2 := reinsert_quad d1 s1 (child s1 r) in
    let* d3 := reinsert_quad d2 s2 (child s2 r) in
    reinsert_list (take_over q d3 r) l3).
  { unfold d at 1. cbn [remove_inner]. fold d. rewrite Er, Q.
    replace (quad_eqb q q) with true by (destruct q; reflexivity). cbn [negb]. rewrite Ea. reflexivity. }
  cbv zeta in U |- *. split.
  - intros ta l1 tb l2 tq l3 E1 E2 E3.
    destruct (adjust_quad_spec _ _ _ _ _ _ _ _ E1) as (c1 & H1 & P1 & W1 & B1).
    destruct (adjust_quad_spec _ _ _ _ _ _ _ _ E2) as (c2 & H2 & P2 & W2 & B2).
    destruct (set_new_root_spec _ _ _ _ _ _ _ _ E3) as (c3 & H3 & P3 & W3 & C3 & R3 & S3).
    cbn [fst snd] in *. rewrite E1 in U. cbn [bind] in U. rewrite E2 in U. cbn [bind] in U.
    rewrite E3 in U. cbn [bind] in U.
    destruct C as (kr & rv & a0 & b0 & e0 & f0 & El). rewrite El in S3.
    destruct (last_in (opposite q) tq) as [|kr' rx' ry' rv' a b e f] eqn:El'; [destruct S3|].
    destruct S3 as (<- & <- & <- & <- & Sq & (d1 & m1 & m1' & A1) & (d2 & m2 & m2' & A2)).
    rewrite opp_opp in Sq. rewrite sides_opposite in A1, A2.
    pose proof (wf_inq _ _ _ _ _ _ _ _ q W) as Fq. fold d in Fq.
    assert (Rin : In (rx, ry, rv) (stored (child q d))).
    { apply (stored_last (opposite q)). rewrite El. left. reflexivity. }
    assert (Iq : inq x y q (rx, ry, rv)) by (rewrite Forall_forall in Fq; apply Fq, Rin).
    assert (Wq : wf (child q d)) by (apply wf_child, W).
    set (r := QN kr rx ry rv a b e f) in *.
    assert (N1 : child (fst (sides q)) r = QE).
    { apply (adjust_quad_all _ _ _ _ _ _ _ _
        (side_hatched x y q rx ry kr rv (child q d) _ (fst (sides q)) Fq Wq El eq_refl Rin (or_introl eq_refl)) A1). }
    assert (N2 : child (snd (sides q)) r = QE).
    { apply (adjust_quad_all _ _ _ _ _ _ _ _
        (side_hatched x y q rx ry kr rv (child q d) _ (snd (sides q)) Fq Wq El eq_refl Rin (or_intror eq_refl)) A2). }
    assert (N3 : child (opposite q) r = QE) by (rewrite <- El'; apply last_in_child).
    destruct (sides q) as [s1 s2] eqn:Es. cbn [fst snd] in N1, N2. rewrite N1, N2 in U.
    cbn [reinsert_quad bind] in U.
    pose proof (taken_shape q d k x y v ne nw se sw ta tb kr rx ry rv a b e f eq_refl) as T.
    rewrite Ea in T. cbv zeta in T. fold r in T. rewrite T in U. clear T.
    assert (Wr : wf r) by (rewrite <- El'; apply wf_last, W3, Wq).
    assert (Frq : Forall (inq rx ry q) (stored (child q r))) by (apply (wf_inq _ _ _ _ _ _ _ _ q Wr)).
    pose proof (wf_inq _ _ _ _ _ _ _ _ qa W) as Fa. fold d in Fa.
    pose proof (wf_inq _ _ _ _ _ _ _ _ qb W) as Fb. fold d in Fb.
    pose proof (fun p => before_adj x y q rx ry rv p Iq) as Bf. rewrite Ea in Bf. cbv zeta in Bf.
    set (d4 := set_child q (set_link false (child q r)) (set_child qa ta (set_child qb tb (QN false rx ry rv ne nw se sw)))) in *.
    assert (W4 : wf d4).
    { pose proof (taken_wf x y q rx ry rv k v ne nw se sw ta tb (set_link false (child q r)) kr a b e f) as T.
      rewrite Ea in T. cbv zeta in T. apply T; clear T.
      - exact W.
      - apply W1, wf_child, W.
      - apply W2, wf_child, W.
      - exact Wr.
      - exact Iq.
      - exact (perm_forall_l _ _ _ _ P1 Fa).
      - apply B1; [apply wf_child, W|]. eapply Forall_impl; [|exact Fa]. intros p. apply Bf.
      - exact (perm_forall_l _ _ _ _ P2 Fb).
      - apply B2; [apply wf_child, W|]. eapply Forall_impl; [|exact Fb]. intros p. apply Bf.
      - rewrite stored_set_link. exact Frq.
      - apply wf_set_link, wf_child, Wr. }
    pose proof (taken_stored q rx ry rv ne nw se sw ta tb (set_link false (child q r))) as P4.
    rewrite Ea in P4. cbv zeta in P4. fold d4 in P4. rewrite stored_set_link in P4.
    rewrite (child_indep (opposite q) false rx ry rv k x y v) in P4. fold d in P4.
    pose proof (stored_quads q k x y v ne nw se sw) as Pd. rewrite Ea in Pd. cbv zeta in Pd. fold d in Pd.
    assert (Pq : Permutation (stored (child q d))
       (lost_of (opposite q) tq ++ ((rx, ry, rv) :: stored (child q r)) ++ lstored c3)).
    { rewrite P3, (lost_of_perm (opposite q) tq), El'.
      unfold r at 1. rewrite (child_stored_only q kr rx ry rv a b e f);
        [fold r; perm|exact N3|fold r; rewrite Es; exact N1|fold r; rewrite Es; exact N2]. }
    assert (Pl : l3 = c1 ++ c2 ++ c3) by (subst; rewrite <- !app_assoc; reflexivity).
    assert (Pall : Permutation (stored d) ((x, y, v) :: (stored d4 ++ lstored l3) ++ lost_of (opposite q) tq)).
    { rewrite Pd, Pq, P1, P2, P4, Pl, !lstored_app. perm. }
    assert (Nd : NoDup (keys (stored d4 ++ lstored l3))).
    { pose proof (wf_nodup d W) as N0.
      apply (Permutation_NoDup (perm_keys _ _ Pall)) in N0.
      change (keys (?p :: ?l)) with (key p :: keys l) in N0.
      unfold keys in N0. cbn [map] in N0. inversion N0 as [|? ? _ N0' Eq]; subst.
      rewrite map_app in N0'. apply nodup_app in N0'. apply N0'. }
    destruct (reinsert_list_spec l3 d4 Nd) as (d' & E' & Wd' & Pd' & _).
    exists d'. split; [rewrite U; exact E'|].
    unfold inner_post, d at 1. split; [auto|].
    exists q, rx, ry, (lost_of (opposite q) tq). split; [exact Er|].
    split; [fold d; rewrite Pall, Pd'; reflexivity|].
    fold d. split.
    + intros E0. apply lost_of_end. apply C3. exact E0.
    + intros E0 E1'. apply E0. apply C3.
      destruct tq as [|kt xt yt vt t1 t2 t3 t4]; [destruct q; reflexivity|].
      destruct (child (opposite q) (QN kt xt yt vt t1 t2 t3 t4)) eqn:Ec; [reflexivity|].
      exfalso. pose proof (lost_of_root (opposite q) kt xt yt vt t1 t2 t3 t4) as Hr.
      rewrite Ec in Hr. specialize (Hr (QN_not_QE _ _ _ _ _ _ _ _)). rewrite E1' in Hr. exact Hr.
  - intros d' E. rewrite U in E.
    destruct (adjust_quad _ _ _ _ (child qa d) da []) as [[ta l1]| |] eqn:E1; try discriminate. cbn [bind] in E.
    destruct (adjust_quad _ _ _ _ (child qb d) db l1) as [[tb l2]| |] eqn:E2; try discriminate. cbn [bind] in E.
    destruct (set_new_root _ _ _ _ (child q d) (opposite q) l2) as [[tq l3]| |] eqn:E3; try discriminate.
    exists ta, l1, tb, l2, tq, l3. auto.
Qed.

Lemma remove_inner_spec d d' : wf d -> leaf d = false -> remove_inner d = Ok d' -> inner_post d d'.
Proof.
  intros W L E. destruct d as [|k x y v ne nw se sw]; [discriminate|].
  destruct (remove_inner_cases k x y v ne nw se sw W L)
    as (q & rx & ry & qa & da & qb & db & Er & Ea & H1 & H2).
  destruct (H2 _ E) as (ta & l1 & tb & l2 & tq & l3 & E1 & E2 & E3).
  destruct (H1 _ _ _ _ _ _ E1 E2 E3) as (d'' & E' & P). congruence.
Qed.

Lemma remove_inner_total d : d <> QE -> wf d -> leaf d = false -> linked_below d -> exists d', remove_inner d = Ok d'.
Proof.
  intros N W L K. destruct d as [|k x y v ne nw se sw]; [congruence|].
  destruct (remove_inner_cases k x y v ne nw se sw W L)
    as (q & rx & ry & qa & da & qb & db & Er & Ea & H1 & H2).
  destruct (adjust_quad_total da (Z.min x rx) (Z.max x rx) (Z.min y ry) (Z.max y ry) _ (K qa) [])
    as (ta & l1 & E1 & _).
  destruct (adjust_quad_total db (Z.min x rx) (Z.max x rx) (Z.min y ry) (Z.max y ry) _ (K qb) l1)
    as (tb & l2 & E2 & _).
  destruct (set_new_root_total (Z.min x rx) (Z.max x rx) (Z.min y ry) (Z.max y ry) (opposite q) _ (K q) l2)
    as (tq & l3 & E3).
  destruct (H1 _ _ _ _ _ _ E1 E2 E3) as (d'' & E' & P). eauto.
Qed.

End P.
