(** Properties C11-C15 and later ones: mdds::segment_tree.

    Stated with the public calls of the model (insert, build_tree, search and its
    iterators, erase, erase_if, clear, size, empty, operator==, copy constructor,
    boundary_keys, is_valid_tree = [valid]) and the specification below, in which a
    tree is a multiset of segments and a flag. *)
From Coq Require Import List ZArith Lia Bool ZifyBool ZifyNat Permutation.
From Verif Require Import Base FstModel FstProofs4 FstProps StModel StProofs StProofs2.
Import ListNotations.
Open Scope Z_scope.

(** * Specification *)
Section Spec.
Context {V : Type}.
Variable veqb : V -> V -> bool.
Variable vdef : V.
Local Notation seg := (Z * Z * V)%type.

(** The point lies in the half-open segment. *)
Definition contains (x : Z) (g : seg) : bool := let '(s, e, _) := g in (s <=? x) && (x <? e).

(** A client's view: the stored segments and whether the tree is built. *)
Definition view : Type := (list seg * bool)%type.

(** What each call may do to the view. *)
Definition spec_step (a : view) (o : @st_op V) (b : view) : Prop :=
  let '(l, ok) := a in let '(l', ok') := b in
  match o with
  | SInsert s e v => if s <? e then Permutation l' ((s, e, v) :: l) /\ ok' = false else Permutation l' l /\ ok' = ok
  | SBuild => Permutation l' l /\ (ok' = true <-> l <> [])
  | SErase x _ => exists g, contains x g = true /\ Permutation l (g :: l') /\ ok' = ok
  | SEraseIf p => Permutation l' (filter (fun '(s, e, v) => negb (p s e v)) l) /\ ok' = ok
  | SClear => l' = [] /\ ok' = false
  end.
(** A whole history of the view. *)
Fixpoint spec_run (a : view) (ops : list (@st_op V)) (b : view) : Prop :=
  match ops with
  | [] => a = b
  | o :: rest => exists m, spec_step a o m /\ spec_run m rest b
  end.

(** A tree some client has built by public calls. *)
Definition reach (t : @st_t V) : Prop := exists ops, st_run veqb vdef st_new ops = Ok t.

(** The segments of the tree, for stating facts about single calls. *)
Definition content (t : @st_t V) : list seg := erase_deleted veqb vdef (store t).
End Spec.

(** * Lemmas *)
Section L.
Context {V : Type}.
Variable veqb : V -> V -> bool.
Variable vdef : V.
Hypothesis veqb_ok : eqb_ok veqb.
Local Notation seg := (Z * Z * V)%type.
Local Notation st_t := (@st_t V).
Local Notation inv := (@inv V vdef).
Local Notation content := (@content V veqb vdef).
Local Notation reach := (@reach V veqb vdef).
Local Notation st_run := (@st_run V veqb vdef).
Local Notation st_step := (@st_step V veqb vdef).

Lemma step_lemma (t : st_t) o t' : inv t -> st_step t o = Ok t' ->
  inv t' /\ spec_step (content t, valid t) o (content t', valid t').
Proof.
  intros HI H. destruct o as [s e v| |x k|p|]; cbn [StModel.st_step] in H.
  - cbn [spec_step]. destruct (s <? e) eqn:E.
    + destruct (insert_ok veqb vdef veqb_ok t s e v HI ltac:(lia)) as (t1 & E1 & HI1 & L1 & V1). rewrite E1 in H.
      injection H as <-. split; [assumption|]. split; [|assumption]. change (content t1) with (live veqb vdef t1). rewrite L1.
      symmetry. apply Permutation_cons_append.
    + rewrite insert_rejected in H by lia. injection H as <-. split; [assumption|]. split; reflexivity.
  - destruct (build_live veqb vdef veqb_ok t HI) as (t1 & E1 & HI1 & L1 & V1). rewrite E1 in H. injection H as <-.
    split; [assumption|]. cbn [spec_step]. change (content t1) with (live veqb vdef t1). rewrite L1. split; [reflexivity|exact V1].
  - destruct (it_advance (search_chains t x) k (it_begin (search_chains t x))) as [it|?|] eqn:EA; try discriminate. cbn [bind] in H.
    unfold st_erase in H. destruct (it_deref (search_chains t x) it) as [i|?|] eqn:ED; try discriminate.
    destruct (erase_ok veqb vdef veqb_ok t x it i HI ED) as (t1 & g & E1 & HI1 & HN & HC & HP & HV).
    unfold st_erase in E1. rewrite ED in E1. cbn [bind] in *. rewrite E1 in H. injection H as <-.
    split; [assumption|]. exists g. split; [exact HC|]. split; assumption.
  - destruct (erase_if_ok veqb vdef veqb_ok t p HI) as (t1 & E1 & HI1 & L1 & V1). rewrite E1 in H. cbn [bind] in H. injection H as <-.
    split; [assumption|]. cbn [spec_step]. change (content t1) with (live veqb vdef t1). rewrite L1. split; [|assumption].
    change (live veqb vdef t) with (content t). erewrite filter_ext; [reflexivity|]. intros [[s e] v]; reflexivity.
  - injection H as <-. destruct (clear_inv veqb vdef t) as (HI1 & L1 & V1). split; [assumption|]. split; assumption.
Qed.

Lemma run_lemma ops : forall (t t' : st_t), inv t -> st_run t ops = Ok t' ->
  inv t' /\ spec_run (content t, valid t) ops (content t', valid t').
Proof.
  induction ops as [|o ops IH]; intros t t' HI H; cbn [StModel.st_run] in H.
  - injection H as <-. split; [assumption|reflexivity].
  - destruct (st_step t o) as [t1|?|] eqn:E; try discriminate. cbn [bind] in H.
    destruct (step_lemma t o t1 HI E) as [HI1 HS1]. destruct (IH t1 t' HI1 H) as [HI2 HS2].
    split; [assumption|]. exists (content t1, valid t1). auto.
Qed.

Lemma reach_inv t : reach t -> inv t.
Proof. intros [ops H]. exact (proj1 (run_lemma ops _ _ (new_inv vdef) H)). Qed.

Lemma history_lemma ops (t : st_t) : st_run st_new ops = Ok t -> spec_run ([], false) ops (content t, valid t).
Proof. intros H. exact (proj2 (run_lemma ops _ _ (new_inv vdef) H)). Qed.

Lemma search_lemma t x : reach t -> exists r, st_search t x = Ok r /\
  Permutation r (if valid t then filter (contains x) (content t) else []).
Proof.
  intros HR. apply reach_inv in HR. destruct (valid t) eqn:EV.
  - eexists. split; [now apply st_search_ok with (vdef := vdef)|]. exact (search_perm veqb vdef veqb_ok t x HR EV).
  - exists []. split; [now apply st_search_invalid|constructor].
Qed.

Lemma progress_lemma t o : reach t ->
  (forall x k, o = SErase x k -> valid t = true /\ (k < length (filter (contains x) (content t)))%nat) ->
  exists t', st_step t o = Ok t'.
Proof.
  intros HR HA. pose proof (reach_inv _ HR) as HI. destruct o as [s e v| |x k|p|]; cbn [StModel.st_step].
  - destruct (Z_lt_dec s e) as [E|E].
    + destruct (insert_ok veqb vdef veqb_ok t s e v HI E) as (t1 & E1 & _). rewrite E1. eauto.
    + rewrite insert_rejected by lia. eauto.
  - destruct (build_live veqb vdef veqb_ok t HI) as (t1 & E1 & _). eauto.
  - destruct (HA x k eq_refl) as [EV HK].
    pose proof (Permutation_length (search_perm veqb vdef veqb_ok t x HI EV)) as HL. rewrite map_length in HL.
    change (filter (cov x) (live veqb vdef t)) with (filter (contains x) (content t)) in HL. rewrite <- HL in HK.
    destruct (nth_error (concat (search_chains t x)) k) as [i|] eqn:EN; [|apply nth_error_None in EN; lia].
    destruct (it_advance_all _ k i (search_nonempty t x) EN) as (it & E1 & E2). rewrite E1. cbn [bind].
    destruct (erase_ok veqb vdef veqb_ok t x it i HI E2) as (t1 & g & E3 & _). eauto.
  - destruct (erase_if_ok veqb vdef veqb_ok t p HI) as (t1 & E1 & _). rewrite E1. cbn [bind]. eauto.
  - eauto.
Qed.

Lemma erase_kth_lemma t x k r g : reach t -> st_search t x = Ok r -> nth_error r k = Some g ->
  exists t', st_step t (SErase x k) = Ok t' /\ Permutation (content t) (g :: content t') /\ valid t' = valid t.
Proof.
  intros HR HS HK. pose proof (reach_inv _ HR) as HI. rewrite (st_search_ok vdef t x HI) in HS. injection HS as <-.
  rewrite nth_error_map in HK. destruct (nth_error (concat (search_chains t x)) k) as [i|] eqn:EN; [|discriminate].
  simpl in HK. injection HK as HK.
  destruct (it_advance_all _ k i (search_nonempty t x) EN) as (it & E1 & E2).
  destruct (erase_ok veqb vdef veqb_ok t x it i HI E2) as (t1 & g1 & E3 & HI1 & HN & HC & HP & HV).
  exists t1. cbn [StModel.st_step]. rewrite E1. cbn [bind]. split; [assumption|]. split; [|assumption].
  rewrite (nth_error_nth _ _ _ HN) in HK. subst. exact HP.
Qed.

Lemma back_lemma (t : st_t) x : reach t -> exists en l,
  it_end (search_chains t x) = Ok en /\
  it_collect (length l) (search_chains t x) en (it_begin (search_chains t x)) = Ok l /\
  it_collect_back (length l) (search_chains t x) (it_begin (search_chains t x)) en = Ok (rev l) /\
  length l = res_size (search_chains t x) /\
  (exists r, st_search t x = Ok r /\ length r = length l).
Proof.
  intros HR. pose proof (reach_inv _ HR) as HI. pose proof (search_nonempty t x) as HN.
  exists (last_it (search_chains t x)), (concat (search_chains t x)). rewrite concat_length_sum.
  split; [now apply it_end_ok|]. split; [now apply it_collect_all|]. split; [now apply it_back_all|]. split; [reflexivity|].
  eexists. split; [now apply st_search_ok with (vdef := vdef)|]. now rewrite map_length, concat_length_sum.
Qed.

Lemma size_lemma (t : st_t) : st_size veqb vdef t = length (content t).
Proof. reflexivity. Qed.
Lemma empty_lemma (t : st_t) : st_empty veqb vdef t = true <-> content t = [].
Proof.
  unfold st_empty. destruct (store t) as [|g l] eqn:E.
  - unfold StProps.content. rewrite E. simpl. tauto.
  - rewrite Nat.eqb_eq, size_lemma. split; [apply length_zero_iff_nil|intros ->; reflexivity].
Qed.

Lemma erase_if_lemma (t : st_t) p : reach t -> exists t',
  st_erase_if veqb vdef t p = Ok (t', length (filter (fun '(s, e, v) => p s e v) (content t))) /\ reach t' /\
  content t' = filter (fun '(s, e, v) => negb (p s e v)) (content t) /\ valid t' = valid t /\
  forall x, exists r, st_search t' x = Ok r /\
    Permutation r (if valid t then filter (contains x) (filter (fun '(s, e, v) => negb (p s e v)) (content t)) else []).
Proof.
  intros HR. destruct (erase_if_ok veqb vdef veqb_ok t p (reach_inv _ HR)) as (t1 & E1 & HI1 & L1 & V1).
  assert (reach t1) as HR1.
  { destruct HR as [ops H]. exists (ops ++ [SEraseIf p]).
    assert (forall ops (a b : st_t), st_run a ops = Ok b -> st_run a (ops ++ [SEraseIf p]) = let* (t', _) := st_erase_if veqb vdef b p in Ok t') as HA.
    { clear. induction ops as [|o ops IH]; intros a b H; cbn [StModel.st_run app] in *.
      - injection H as ->. cbn [StModel.st_step]. now destruct (st_erase_if veqb vdef b p) as [[? ?]|?|].
      - destruct (st_step a o); try discriminate. cbn [bind] in *. now apply IH. }
    rewrite (HA _ _ _ H), E1. reflexivity. }
  assert (content t1 = filter (fun '(s, e, v) => negb (p s e v)) (content t)) as EC.
  { change (content t1) with (live veqb vdef t1). rewrite L1. apply filter_ext. intros [[s e] v]; reflexivity. }
  exists t1. split.
  - rewrite E1. do 3 f_equal. apply filter_ext. intros [[s e] v]. simpl. apply negb_involutive.
  - split; [assumption|]. split; [exact EC|]. split; [assumption|].
    intros x. destruct (search_lemma t1 x HR1) as (r & H1 & H2). exists r. now rewrite V1, EC in H2.
Qed.

Lemma eq_spec_lemma (a b : st_t) : st_eqb veqb vdef a b = true <->
  valid a = valid b /\ length (content a) = length (content b) /\ (forall g, In g (content a) -> In g (content b)).
Proof. exact (st_eqb_spec veqb vdef veqb_ok a b). Qed.

Lemma eq_complete_lemma (a b : st_t) : valid a = valid b -> Permutation (content a) (content b) -> st_eqb veqb vdef a b = true.
Proof.
  intros HV HP. apply eq_spec_lemma. split; [assumption|]. split; [now apply Permutation_length|].
  intros g. now apply Permutation_in.
Qed.

Lemma eq_sound_lemma (a b : st_t) : NoDup (content a) -> st_eqb veqb vdef a b = true -> Permutation (content a) (content b) /\ valid a = valid b.
Proof.
  intros HN H. apply eq_spec_lemma in H. destruct H as (H1 & H2 & H3). split; [|assumption].
  apply NoDup_Permutation_bis; [assumption|lia|exact H3].
Qed.

Lemma copy_lemma (t : st_t) : reach t -> exists c, st_copy veqb vdef t = Ok c /\
  content c = content t /\ (st_eqb veqb vdef c t = true <-> ~ (valid t = true /\ content t = [])) /\
  forall x, exists r r', st_search t x = Ok r /\ st_search c x = Ok r' /\ Permutation r r'.
Proof.
  intros HR. pose proof (reach_inv _ HR) as HI. destruct (copy_ok veqb vdef veqb_ok t HI) as (c & E & HIc & L & EV).
  change (live veqb vdef c) with (content c) in L. change (live veqb vdef t) with (content t) in L, EV.
  exists c. split; [assumption|]. split; [assumption|]. split.
  - rewrite eq_spec_lemma, L, EV. destruct (valid t), (content t) as [|g l]; simpl; intuition congruence.
  - intros x. destruct (valid t) eqn:EVt.
    + eexists; eexists. split; [now apply st_search_ok with (vdef := vdef)|]. split; [now apply st_search_ok with (vdef := vdef)|].
      rewrite (search_perm veqb vdef veqb_ok t x HI EVt). change (live veqb vdef t) with (content t).
      destruct (content t) as [|g l] eqn:EC.
      * simpl in *. unfold search_chains. rewrite EV. simpl. constructor.
      * simpl in EV. rewrite (search_perm veqb vdef veqb_ok c x HIc EV). change (live veqb vdef c) with (content c). now rewrite L.
    + exists [], []. split; [now apply st_search_invalid|]. split; [now apply st_search_invalid|]. constructor.
Qed.

Lemma insert_lemma (t : st_t) s e v :
  (e <= s -> st_insert t s e v = Throw E_invalid_arg) /\
  (s < e -> exists t', st_insert t s e v = Ok t' /\ valid t' = false /\ content t' = content t ++ [(s, e, v)] /\ forall x, st_search t' x = Ok []).
Proof.
  split; [apply insert_rejected|]. intros H. unfold st_insert. replace (e <=? s) with false by lia. eexists. split; [reflexivity|].
  split; [reflexivity|]. split; [|intros x; now apply st_search_invalid].
  unfold StProps.content, erase_deleted. cbn [store]. rewrite filter_app. f_equal. cbn [filter].
  rewrite (proper_not_deleted veqb vdef veqb_ok) by assumption. reflexivity.
Qed.

Lemma boundary_lemma (t : st_t) : reach t ->
  incr (boundary_keys veqb vdef t) /\
  forall k, In k (boundary_keys veqb vdef t) <-> exists s e v, In (s, e, v) (content t) /\ (k = s \/ k = e).
Proof.
  intros _. unfold boundary_keys. split; [apply uniq_incr, sort_keys_nondec|]. intros k. rewrite uniq_In.
  assert (In k (sort_keys (seg_keys (content t))) <-> In k (seg_keys (content t))) as E.
  { split; apply Permutation_in; [|symmetry]; apply sort_keys_perm. }
  unfold StProps.content in *. rewrite E. induction (erase_deleted veqb vdef (store t)) as [|[[s e] v] l IH]; simpl.
  - split; [contradiction|]. intros (s & e & v & [] & _).
  - simpl in IH. clear E. split.
    + intros [<-|[<-|H]]; [exists s, e, v; auto|exists s, e, v; auto|].
      assert (forall l, In k (seg_keys l) -> exists s e (v : V), In (s, e, v) l /\ (k = s \/ k = e)) as HH.
      { clear. induction l as [|[[s e] v] l IH]; simpl; [contradiction|]. intros [<-|[<-|H]].
        - exists s, e, v. auto.
        - exists s, e, v. auto.
        - destruct (IH H) as (s' & e' & v' & H1 & H2). exists s', e', v'. auto. }
      destruct (HH l H) as (s' & e' & v' & H1 & H2). exists s', e', v'. auto.
    + intros (s' & e' & v' & [H|H] & HE).
      * injection H as -> -> ->. intuition.
      * destruct (seg_keys_in l s' e' v' H). destruct HE; subst; auto.
Qed.

Lemma leaf_size_lemma (t : st_t) : reach t -> content t <> [] ->
  exists t', StModel.st_build veqb vdef t = Ok t' /\ st_leaf_size t' = length (boundary_keys veqb vdef t') /\
    boundary_keys veqb vdef t' = boundary_keys veqb vdef t.
Proof.
  intros H N. destruct (build_live veqb vdef veqb_ok t (reach_inv t H)) as (t1 & E1 & _ & L1 & _).
  exists t1. split; [exact E1|]. unfold boundary_keys. unfold live in L1. rewrite L1. split; [|reflexivity].
  unfold st_leaf_size, StModel.st_build in *. unfold StProps.content in N.
  set (sg := erase_deleted veqb vdef (store t)) in *.
  assert (create_leaf_keys (seg_keys sg) = uniq (sort_keys (seg_keys sg))) as K.
  { destruct sg as [|[[s e] v] l]; [congruence|]. reflexivity. }
  assert (create_leaf_keys (seg_keys sg) <> []) as NE.
  { destruct sg as [|[[s e] v] l]; [congruence|]. intros X. assert (In s (create_leaf_keys (seg_keys ((s, e, v) :: l)))) as I.
    { rewrite K, uniq_In. eapply Permutation_in; [symmetry; apply sort_keys_perm|]. now left. }
    rewrite X in I. exact I. }
  rewrite <- K. destruct (create_leaf_keys (seg_keys sg)) as [|k0 ks] eqn:EK; [congruence|].
  destruct (count_needed_nonleaf_nodes _ _ _) as [pool|?|]; try discriminate. cbn [bind] in E1.
  destruct (st_builder _ _ _) as [[r|]|?|]; try discriminate; cbn [bind] in E1.
  - destruct (mark_all 0 sg r) as [r' m]. injection E1 as <-. reflexivity.
  - injection E1 as <-. reflexivity.
Qed.
End L.

(** * Theorems *)

(** A tree used in the examples: six segments, one erased after building. *)
Definition ex_ops : list (@st_op Z) :=
  [SInsert 0 10 1; SInsert 5 15 2; SInsert (-3) 7 3; SInsert 20 30 4; SInsert 5 15 2; SInsert 6 7 5; SBuild; SErase 6 1].
Definition ex_tree : @st_t Z := match st_run Z.eqb 0 st_new ex_ops with Ok t => t | _ => st_new end.
Lemma ex_tree_reach : reach Z.eqb 0 ex_tree.
Proof. exists ex_ops. reflexivity. Qed.

(** C11: in a reachable built tree, search returns the stored segments containing the
    point, each as often as it is stored. *)
Theorem C11_search : forall (V : Type) (veqb : V -> V -> bool) (vdef : V), eqb_ok veqb ->
  forall (t : @st_t V) x, reach veqb vdef t -> exists r, st_search t x = Ok r /\
  Permutation r (if valid t then filter (contains x) (content veqb vdef t) else []).
Proof. exact @search_lemma. Qed.
Example C11_search_ex : valid ex_tree = true /\ st_search ex_tree 6 = Ok [(0, 10, 1); (5, 15, 2); (-3, 7, 3); (6, 7, 5)] /\
  st_search ex_tree 7 = Ok [(0, 10, 1); (5, 15, 2)] /\ st_search ex_tree 16 = Ok [].
Proof. repeat split. Qed.

(** C11: the tree built from any inserted segments is valid unless it is empty, and the stored
    segments are the ones the history demands. *)
Theorem C11_history : forall (V : Type) (veqb : V -> V -> bool) (vdef : V), eqb_ok veqb ->
  forall ops (t : @st_t V), st_run veqb vdef st_new ops = Ok t ->
  spec_run ([], false) ops (content veqb vdef t, valid t).
Proof. exact @history_lemma. Qed.
Example C11_history_ex : st_run Z.eqb 0 st_new ex_ops = Ok ex_tree /\
  content Z.eqb 0 ex_tree = [(0, 10, 1); (-3, 7, 3); (20, 30, 4); (5, 15, 2); (6, 7, 5)].
Proof. split; reflexivity. Qed.

(** C11: every call is defined; erase needs an iterator to one of the results. *)
Theorem C11_defined_calls : forall (V : Type) (veqb : V -> V -> bool) (vdef : V), eqb_ok veqb ->
  forall (t : @st_t V) o, reach veqb vdef t ->
  (forall x k, o = SErase x k -> valid t = true /\ (k < length (filter (contains x) (content veqb vdef t)))%nat) ->
  exists t', st_step veqb vdef t o = Ok t'.
Proof. exact @progress_lemma. Qed.
Example C11_defined_calls_ex : reach Z.eqb 0 ex_tree /\ valid ex_tree = true /\
  (3 < length (filter (contains 6%Z) (content Z.eqb 0%Z ex_tree)))%nat.
Proof. split; [exact ex_tree_reach|]. split; [reflexivity|]. vm_compute. lia. Qed.

(** C12: erasing through the k-th iterator of a search removes exactly that segment
    and keeps the tree built. *)
Theorem C12_erase : forall (V : Type) (veqb : V -> V -> bool) (vdef : V), eqb_ok veqb ->
  forall (t : @st_t V) x k r g, reach veqb vdef t -> st_search t x = Ok r -> nth_error r k = Some g ->
  exists t', st_step veqb vdef t (SErase x k) = Ok t' /\
  Permutation (content veqb vdef t) (g :: content veqb vdef t') /\ valid t' = valid t.
Proof. exact @erase_kth_lemma. Qed.
Example C12_erase_ex : exists r t', st_search ex_tree 6 = Ok r /\ nth_error r 2 = Some (-3, 7, 3) /\
  st_step Z.eqb 0 ex_tree (SErase 6 2) = Ok t' /\ st_search t' 6 = Ok [(0, 10, 1); (5, 15, 2); (6, 7, 5)].
Proof.
  eexists; eexists. split; [vm_compute; reflexivity|]. split; [vm_compute; reflexivity|]. split; vm_compute; reflexivity.
Qed.

(** C12: erase_if removes exactly the segments satisfying the predicate, returns their
    number, and searching is exact without a rebuild. *)
Theorem C12_erase_if : forall (V : Type) (veqb : V -> V -> bool) (vdef : V), eqb_ok veqb ->
  forall (t : @st_t V) p, reach veqb vdef t -> exists t',
  st_erase_if veqb vdef t p = Ok (t', length (filter (fun '(s, e, v) => p s e v) (content veqb vdef t))) /\
  reach veqb vdef t' /\
  content veqb vdef t' = filter (fun '(s, e, v) => negb (p s e v)) (content veqb vdef t) /\ valid t' = valid t /\
  forall x, exists r, st_search t' x = Ok r /\
    Permutation r (if valid t then filter (contains x) (filter (fun '(s, e, v) => negb (p s e v)) (content veqb vdef t)) else []).
Proof. exact @erase_if_lemma. Qed.
Example C12_erase_if_ex : exists t', st_erase_if Z.eqb 0 ex_tree (fun s e v => 6 <? e - s) = Ok (t', 4%nat) /\
  st_search t' 6 = Ok [(6, 7, 5)] /\ st_search t' 8 = Ok [].
Proof. eexists. split; [vm_compute; reflexivity|]. split; vm_compute; reflexivity. Qed.

(** C12: size() and empty() count the stored segments. *)
Theorem C12_size : forall (V : Type) (veqb : V -> V -> bool) (vdef : V) (t : @st_t V),
  st_size veqb vdef t = length (content veqb vdef t).
Proof. exact @size_lemma. Qed.
Theorem C12_empty : forall (V : Type) (veqb : V -> V -> bool) (vdef : V) (t : @st_t V),
  st_empty veqb vdef t = true <-> content veqb vdef t = [].
Proof. exact @empty_lemma. Qed.
Example C12_size_ex : st_size Z.eqb 0 ex_tree = 5%nat /\ length (store ex_tree) = 6%nat.
Proof. split; reflexivity. Qed.

(** C13 in full asks for equality of multisets.  What operator== decides: *)
Theorem C13_equality_exact : forall (V : Type) (veqb : V -> V -> bool) (vdef : V), eqb_ok veqb ->
  forall (a b : @st_t V), st_eqb veqb vdef a b = true <->
  valid a = valid b /\ length (content veqb vdef a) = length (content veqb vdef b) /\
  (forall g, In g (content veqb vdef a) -> In g (content veqb vdef b)).
Proof. exact @eq_spec_lemma. Qed.
(** Trees with the same segments and the same validity are equal. *)
Theorem C13_equality_complete_partial : forall (V : Type) (veqb : V -> V -> bool) (vdef : V), eqb_ok veqb ->
  forall (a b : @st_t V), valid a = valid b -> Permutation (content veqb vdef a) (content veqb vdef b) ->
  st_eqb veqb vdef a b = true.
Proof. exact @eq_complete_lemma. Qed.
(** Equal trees have the same segments if the left one holds no segment twice. *)
Theorem C13_equality_sound_partial : forall (V : Type) (veqb : V -> V -> bool) (vdef : V), eqb_ok veqb ->
  forall (a b : @st_t V), NoDup (content veqb vdef a) -> st_eqb veqb vdef a b = true ->
  Permutation (content veqb vdef a) (content veqb vdef b) /\ valid a = valid b.
Proof. exact @eq_sound_lemma. Qed.
Definition ex_other : @st_t Z :=
  match st_run Z.eqb 0 st_new [SInsert 6 7 5; SInsert 20 30 4; SInsert (-3) 7 3; SInsert 5 15 2; SInsert 0 10 1; SBuild] with
  | Ok t => t | _ => st_new end.
Example C13_equality_ex : st_eqb Z.eqb 0 ex_tree ex_other = true /\ content Z.eqb 0 ex_tree <> content Z.eqb 0 ex_other /\
  NoDup (content Z.eqb 0 ex_tree).
Proof.
  split; [vm_compute; reflexivity|]. split; [vm_compute; discriminate|]. vm_compute.
  repeat (constructor; [intros H; repeat (destruct H as [H|H]; [discriminate|]); contradiction|]). constructor.
Qed.
(** With repeated segments operator== is neither symmetric nor multiset equality. *)
Theorem C13_equality_refuted : exists a b, reach Z.eqb 0 a /\ reach Z.eqb 0 b /\
  st_eqb Z.eqb 0 a b = true /\ st_eqb Z.eqb 0 b a = false /\ ~ Permutation (content Z.eqb 0 a) (content Z.eqb 0 b).
Proof.
  eexists; eexists. split; [exists [SInsert 0 10 1; SInsert 0 10 1]; reflexivity|].
  split; [exists [SInsert 0 10 1; SInsert 5 6 2]; reflexivity|]. split; [reflexivity|]. split; [reflexivity|].
  intros H. assert (In (5, 6, 2) (content Z.eqb 0 (mkSt [(0, 10, 1); (0, 10, 1)] [] None [] false))) as HI.
  { eapply Permutation_in; [symmetry; exact H|]. simpl. auto. }
  simpl in HI. destruct HI as [HI|[HI|[]]]; discriminate.
Qed.
(** Nor do two trees with the same segments compare equal when only one has been built. *)
Theorem C13_equality_built_refuted : exists a b, reach Z.eqb 0 a /\ reach Z.eqb 0 b /\
  content Z.eqb 0 a = content Z.eqb 0 b /\ st_eqb Z.eqb 0 a b = false.
Proof.
  eexists; eexists. split; [exists [SInsert 0 10 1]; reflexivity|].
  split; [exists [SInsert 0 10 1; SBuild]; reflexivity|]. split; reflexivity.
Qed.

(** C14: a copy holds the same segments and answers every search alike; it compares
    equal except when the source is a built tree whose segments have all been erased. *)
Theorem C14_copy_partial : forall (V : Type) (veqb : V -> V -> bool) (vdef : V), eqb_ok veqb ->
  forall (t : @st_t V), reach veqb vdef t -> exists c, st_copy veqb vdef t = Ok c /\
  content veqb vdef c = content veqb vdef t /\
  (st_eqb veqb vdef c t = true <-> ~ (valid t = true /\ content veqb vdef t = [])) /\
  forall x, exists r r', st_search t x = Ok r /\ st_search c x = Ok r' /\ Permutation r r'.
Proof. exact @copy_lemma. Qed.
Example C14_copy_ex : exists c, st_copy Z.eqb 0 ex_tree = Ok c /\ st_eqb Z.eqb 0 c ex_tree = true /\ store c <> store ex_tree /\
  st_search c 6 = Ok [(0, 10, 1); (5, 15, 2); (-3, 7, 3); (6, 7, 5)].
Proof. eexists. split; [vm_compute; reflexivity|]. split; [vm_compute; reflexivity|]. split; [vm_compute; discriminate|vm_compute; reflexivity]. Qed.
Theorem C14_copy_refuted : exists t c, reach Z.eqb 0 t /\ st_copy Z.eqb 0 t = Ok c /\ st_eqb Z.eqb 0 c t = false.
Proof.
  eexists; eexists. split; [exists [SInsert 0 10 1; SBuild; SErase 5 0]; reflexivity|]. split; reflexivity.
Qed.

(** C15: insert rejects an empty or reversed segment (no new state is produced); an
    accepted insert makes the tree stale, and a stale tree finds nothing. *)
Theorem C15_insert : forall (V : Type) (veqb : V -> V -> bool) (vdef : V), eqb_ok veqb ->
  forall (t : @st_t V) s e v,
  (e <= s -> st_insert t s e v = Throw E_invalid_arg) /\
  (s < e -> exists t', st_insert t s e v = Ok t' /\ valid t' = false /\
     content veqb vdef t' = content veqb vdef t ++ [(s, e, v)] /\ forall x, st_search t' x = Ok []).
Proof. exact @insert_lemma. Qed.
Theorem C15_stale : forall (V : Type) (t : @st_t V) x, valid t = false -> st_search t x = Ok [].
Proof. exact @st_search_invalid. Qed.
Example C15_insert_ex : exists t', st_insert ex_tree 6 9 7 = Ok t' /\ st_search t' 6 = Ok [] /\ st_insert ex_tree 6 6 7 = Throw E_invalid_arg.
Proof. eexists. split; [reflexivity|]. split; reflexivity. Qed.

(** C59: boundary_keys() is the strictly increasing list of all end points of the stored segments. *)
Theorem C59_boundary_keys : forall (V : Type) (veqb : V -> V -> bool) (vdef : V) (t : @st_t V), reach veqb vdef t ->
  incr (boundary_keys veqb vdef t) /\
  forall k, In k (boundary_keys veqb vdef t) <-> exists s e v, In (s, e, v) (content veqb vdef t) /\ (k = s \/ k = e).
Proof. exact @boundary_lemma. Qed.
Example C59_boundary_keys_ex : boundary_keys Z.eqb 0 ex_tree = [-3; 0; 5; 6; 7; 10; 15; 20; 30].
Proof. reflexivity. Qed.

(** C81: right after build_tree() of a tree that is not empty, leaf_size() is the number of
    boundary keys. *)
Theorem C81_leaf_size_partial : forall (V : Type) (veqb : V -> V -> bool) (vdef : V), eqb_ok veqb ->
  forall (t : @st_t V), reach veqb vdef t -> content veqb vdef t <> [] ->
  exists t', st_build veqb vdef t = Ok t' /\ st_leaf_size t' = length (boundary_keys veqb vdef t') /\
    boundary_keys veqb vdef t' = boundary_keys veqb vdef t.
Proof. exact @leaf_size_lemma. Qed.
Example C81_leaf_size_ex : exists t, st_build Z.eqb 0 ex_tree = Ok t /\ st_leaf_size t = 9%nat.
Proof. eexists. split; vm_compute; reflexivity. Qed.
(** Finding S3: the empty tree, which has no leaf and no boundary key, reports one leaf. *)
Theorem C81_leaf_size_refuted : exists t : @st_t Z, reach Z.eqb 0 t /\ st_empty Z.eqb 0 t = true /\
  boundary_keys Z.eqb 0 t = [] /\ st_leaf_size t = 1%nat.
Proof. exists st_new. split; [exists []; reflexivity|]. repeat split. Qed.

(** C60: iterating the results backwards from end() visits the same entries in reverse,
    and size() of the results is their number. *)
Theorem C60_results_backwards : forall (V : Type) (veqb : V -> V -> bool) (vdef : V), eqb_ok veqb ->
  forall (t : @st_t V) x, reach veqb vdef t -> exists en l,
  it_end (search_chains t x) = Ok en /\
  it_collect (length l) (search_chains t x) en (it_begin (search_chains t x)) = Ok l /\
  it_collect_back (length l) (search_chains t x) (it_begin (search_chains t x)) en = Ok (rev l) /\
  length l = res_size (search_chains t x) /\
  (exists r, st_search t x = Ok r /\ length r = length l).
Proof. exact @back_lemma. Qed.
Example C60_results_backwards_ex : res_size (search_chains ex_tree 6) = 4%nat /\ length (search_chains ex_tree 6) = 2%nat.
Proof. split; reflexivity. Qed.

(** C61: a moved-from tree.  The moved-to tree is the source; the moved-from tree still
    claims to be valid, and dereferencing its results is undefined. *)
Theorem C61_moved_to : forall (V : Type) (t : @st_t V), fst (st_move t) = t.
Proof. reflexivity. Qed.
Theorem C61_moved_from_cleared_partial : forall (V : Type) (t : @st_t V), st_clear (snd (st_move t)) = st_new.
Proof. reflexivity. Qed.
Theorem C61_moved_from_refuted : exists (t : @st_t Z) x, reach Z.eqb 0 t /\ st_empty Z.eqb 0 (snd (st_move t)) = true /\
  valid (snd (st_move t)) = true /\ st_search (snd (st_move t)) x = Undef.
Proof. exists ex_tree, 6. split; [exact ex_tree_reach|]. repeat split. Qed.

(** One query for all the theorems of this file. *)
Definition StProps_theorems :=
  (@C11_search, @C11_history, @C11_defined_calls, @C12_erase,
   @C12_erase_if, @C12_size, @C12_empty, @C13_equality_exact,
   @C13_equality_complete_partial, @C13_equality_sound_partial, @C13_equality_refuted, @C13_equality_built_refuted,
   @C14_copy_partial, @C14_copy_refuted, @C15_insert, @C15_stale,
   @C59_boundary_keys, @C81_leaf_size_partial, @C81_leaf_size_refuted, @C60_results_backwards, @C61_moved_to, @C61_moved_from_cleared_partial,
   @C61_moved_from_refuted).
Print Assumptions StProps_theorems.
