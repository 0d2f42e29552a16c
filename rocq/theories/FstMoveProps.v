(** Property C80: copying, moving, swapping and assigning mdds::flat_segment_tree. *)
From Coq Require Import List ZArith Lia Bool ZifyBool ZifyNat.
From Verif Require Import Base FstModel FstProofs FstProofs2 FstProofs3 FstProofs4 FstProps FstMove.
Import ListNotations.
Open Scope Z_scope.

(** * Specification: what each tree of a program must hold *)
Section Spec.
Context {V : Type}.
Notation op := (@op V).
Notation cmd := (@cmd V).

(** Bounds, default value and content of a tree; [None] was moved from. *)
Definition aobj : Type := option (Z * Z * V * (Z -> V)).

(** The objects after a command: values, with moves that leave nothing behind. *)
Definition acall (o : op) (a : aobj) : aobj :=
  match a with
  | Some (mn, mx, d, f) => Some (mn, mx, d, content_step mn mx d f o)
  | None => None
  end.
Definition aexec (w : list aobj) (c : cmd) : list aobj :=
  match c with
  | CNew mn mx d => w ++ [Some (mn, mx, d, fun _ => d)]
  | CCopy j => w ++ [nth j w None]
  | CMove j => set_nth j None w ++ [nth j w None]
  | CAssign i j => set_nth i (nth j w None) w
  | CMoveAssign i j => if (i =? j)%nat then w else set_nth i (nth j w None) (set_nth j None w)
  | CSwap i j => set_nth j (nth i w None) (set_nth i (nth j w None) w)
  | CCall i o => set_nth i (acall o (nth i w None)) w
  end.
Fixpoint aexecs (w : list aobj) (cs : list cmd) : list aobj :=
  match cs with
  | [] => w
  | c :: cs => aexecs (aexec w c) cs
  end.

(** The bounds that the program gives to the constructor are in order. *)
Definition good_cmd (c : cmd) : Prop := match c with CNew mn mx _ => mn < mx | _ => True end.

Variable veqb : V -> V -> bool.
Variable vnull : V.

(** The object is as the specification says, as far as a client can see. *)
Definition shows (x : @obj V) (a : aobj) : Prop :=
  match x, a with
  | Live t, Some (mn, mx, d, f) => reach veqb vnull mn mx d t /\
      (forall k, mn <= k < mx -> val_at t k = Some (f k)) /\ (forall k, ~ (mn <= k < mx) -> val_at t k = None)
  | Gone, None => True
  | _, _ => False
  end.

(** The trees that a program can hold. *)
Definition holds (w : list (@obj V)) : Prop :=
  exists cs, (forall c, In c cs -> good_cmd c) /\ execs veqb vnull [] cs = Ok w.

(** A command whose behaviour is defined. *)
Definition proper_cmd (w : list (@obj V)) (c : cmd) : Prop :=
  let live j := exists t, nth_error w j = Some (Live t) in
  match c with
  | CNew _ _ _ => True
  | CCopy j => live j
  | CMove j => (j < length w)%nat
  | CAssign i j => (i < length w)%nat /\ live j
  | CMoveAssign i j | CSwap i j => (i < length w)%nat /\ (j < length w)%nat
  | CCall i o =>
      (exists t mn, nth_error w i = Some (Live t) /\ min_key t = Ok mn /\ proper_call mn t o) \/
      (nth_error w i = Some Gone /\
       match o with
       | OFront s e _ | OBack s e _ | OHint None s e _ | OShiftL s e => e <= s
       | OShiftR _ n _ => n <= 0
       | OBuild => True
       | _ => False
       end)
  end.
End Spec.

(** * Proofs *)
Section P.
Context {V : Type}.
Variable veqb : V -> V -> bool.
Variable vnull : V.
Hypothesis veqb_ok : eqb_ok veqb.
Notation shows := (shows veqb vnull).

Lemma F2_len {A B} (R : A -> B -> Prop) l l' : Forall2 R l l' -> length l = length l'.
Proof. induction 1; simpl; congruence. Qed.
Lemma F2_nth {A B} (R : A -> B -> Prop) l l' i x d : Forall2 R l l' -> nth_error l i = Some x -> R x (nth i l' d).
Proof.
  intros H; revert i; induction H as [|a b l l' HR H IH]; intros [|i] E; simpl in *; try discriminate.
  - now injection E as <-.
  - now apply IH.
Qed.
Lemma F2_set {A B} (R : A -> B -> Prop) l l' i x y : Forall2 R l l' -> R x y -> Forall2 R (set_nth i x l) (set_nth i y l').
Proof.
  intros H HR; revert i; induction H as [|a b l l' Hab H IH]; intros [|i]; simpl; constructor; auto.
Qed.
Lemma F2_snoc {A B} (R : A -> B -> Prop) l l' x y : Forall2 R l l' -> R x y -> Forall2 R (l ++ [x]) (l' ++ [y]).
Proof. intros H HR. apply Forall2_app; auto. Qed.
Lemma nth_set_same {A} i (x : A) l : (i < length l)%nat -> nth_error (set_nth i x l) i = Some x.
Proof. revert i; induction l as [|a l IH]; intros [|i] H; simpl in *; try lia; auto. apply IH. lia. Qed.
Lemma nth_set_other {A} i j (x : A) l : i <> j -> nth_error (set_nth i x l) j = nth_error l j.
Proof. revert i j; induction l as [|a l IH]; intros [|i] [|j] H; simpl; auto; try lia. Qed.
Lemma set_set {A} i (x y : A) l : set_nth i x (set_nth i y l) = set_nth i x l.
Proof. revert i; induction l as [|a l IH]; intros [|i]; simpl; auto. f_equal. apply IH. Qed.
Lemma set_id {A} i (x : A) l : nth_error l i = Some x -> set_nth i x l = l.
Proof. revert i; induction l as [|a l IH]; intros [|i] H; simpl in *; try discriminate; [now injection H as ->|f_equal; auto]. Qed.
Lemma nth_some {A} (l : list A) i x : nth_error l i = Some x -> (i < length l)%nat.
Proof. intros H. apply nth_error_Some. congruence. Qed.

Lemma run_app (t : @fst_t V) ops o : run veqb t (ops ++ [o]) = let* u := run veqb t ops in step veqb u o.
Proof.
  revert t; induction ops as [|o' ops IH]; intros t; simpl.
  - now destruct (step veqb t o).
  - destruct (step veqb t o'); [apply IH|reflexivity|reflexivity].
Qed.

Lemma shows_step t o t' a : shows (Live t) a -> step veqb t o = Ok t' -> shows (Live t') (acall o a).
Proof.
  destruct a as [[[[mn mx] d] f]|]; [|contradiction]. intros (R & H1 & H2) HS.
  pose proof R as W. apply reach_wf in W; [|exact veqb_ok].
  destruct (step_ok veqb vnull veqb_ok mn mx d t o t' W HS) as (W' & HE & _).
  split; [|split].
  - destruct R as (Hlt & ops & HR). split; [assumption|]. exists (ops ++ [o]). rewrite run_app, HR. exact HS.
  - intros k Hk. rewrite (val_at_ev vnull mn mx d) by assumption. f_equal. rewrite HE by assumption.
    change (content_step mn mx d f o k) with (content mn mx d f [o] k). rewrite content_spec. cbn [fold_left].
    apply spec_step_ext; [|assumption]. intros y Hy. specialize (H1 y Hy).
    rewrite (val_at_ev vnull mn mx d) in H1 by assumption. congruence.
  - intros k Hk. now apply (val_at_out vnull mn mx d).
Qed.

Lemma shows_copy t a : shows (Live t) a -> shows (Live (fst_copy t)) a.
Proof.
  intros H. pose proof (shows_step t OCopy (fst_copy t) a H eq_refl) as G.
  destruct a as [[[[mn mx] d] f]|]; [|contradiction]. exact G.
Qed.

Lemma shows_new mn mx d : mn < mx -> shows (Live (fst_new vnull mn mx d)) (Some (mn, mx, d, fun _ => d)).
Proof.
  intros Hlt. assert (reach veqb vnull mn mx d (fst_new vnull mn mx d)) as R by (split; [assumption|now exists []]).
  split; [assumption|]. pose proof R as W. apply reach_wf in W; [|exact veqb_ok]. split.
  - intros k Hk. rewrite (val_at_ev vnull mn mx d) by assumption. unfold fst_new. cbn [leaves]. rewrite !ev_cons, ev_nil.
    cbn [fst snd]. replace (mn <=? k) with true by lia. now replace (mx <=? k) with false by lia.
  - intros k Hk. now apply (val_at_out vnull mn mx d).
Qed.

Lemma exec_shows w a c w' : good_cmd c -> Forall2 shows w a -> exec veqb vnull w c = Ok w' -> Forall2 shows w' (aexec a c).
Proof.
  intros GC H E. destruct c as [mn mx d|j|j|i j|i j|i j|i o]; cbn [exec aexec] in *.
  - injection E as <-. apply F2_snoc; [assumption|]. now apply shows_new.
  - destruct (nth_error w j) as [x|] eqn:Ej; [|discriminate]. cbn [deref bind] in E.
    pose proof (F2_nth _ _ _ _ _ None H Ej) as S. destruct x as [t|]; [|discriminate]. injection E as <-.
    apply F2_snoc; [assumption|]. now apply shows_copy.
  - destruct (nth_error w j) as [x|] eqn:Ej; [|discriminate]. cbn [deref bind] in E. injection E as <-.
    pose proof (F2_nth _ _ _ _ _ None H Ej) as S. apply F2_snoc; [|assumption]. apply F2_set; [assumption|exact I].
  - destruct (nth_error w j) as [x|] eqn:Ej; [|discriminate]. cbn [deref bind] in E.
    pose proof (F2_nth _ _ _ _ _ None H Ej) as S. destruct x as [t|]; [|discriminate].
    cbn [copy_obj bind] in E. destruct (nth_error w i); [|discriminate]. injection E as <-.
    apply F2_set; [assumption|]. now apply shows_copy.
  - destruct (nth_error w j) as [x|] eqn:Ej; [|discriminate]. cbn [deref bind] in E.
    pose proof (F2_nth _ _ _ _ _ None H Ej) as S. destruct (nth_error (set_nth j Gone w) i); [|discriminate].
    injection E as <-. destruct (i =? j)%nat eqn:Eij.
    + apply Nat.eqb_eq in Eij. subst i. rewrite set_set, (set_id j x w Ej). assumption.
    + apply F2_set; [|assumption]. apply F2_set; [assumption|exact I].
  - destruct (nth_error w i) as [x|] eqn:Ei; [|discriminate]. destruct (nth_error w j) as [y|] eqn:Ej; [|discriminate].
    injection E as <-. pose proof (F2_nth _ _ _ _ _ None H Ei) as S1. pose proof (F2_nth _ _ _ _ _ None H Ej) as S2.
    apply F2_set; [|assumption]. now apply F2_set.
  - destruct (nth_error w i) as [x|] eqn:Ei; [|discriminate]. cbn [deref bind] in E.
    pose proof (F2_nth _ _ _ _ _ None H Ei) as S. destruct x as [t|]; cbn [call] in E.
    + destruct (step veqb t o) as [t'| |] eqn:Es; try discriminate. injection E as <-.
      apply F2_set; [assumption|]. eapply shows_step; eauto.
    + assert (forall b : aobj, shows Gone b -> b = None) as HG by (intros [[[[? ?] ?] ?]|]; [contradiction|reflexivity]).
      apply HG in S. match goal with |- context [acall o ?n] => change n with (nth i a (None : aobj)) end.
      change (nth i a (None : aobj) = None) in S. rewrite S.
      destruct (gone_call o) as [y| |] eqn:Eg; try discriminate. injection E as <-.
      assert (y = Gone) as ->.
      { destruct o as [s e v|s e v|[p|] s e v|s e|p n k| | |]; simpl in Eg; try discriminate;
          try (destruct (_ <=? _); [|discriminate]); congruence. }
      apply F2_set; [assumption|exact I].
Qed.

Lemma execs_shows cs : forall w a w', (forall c, In c cs -> good_cmd c) -> Forall2 shows w a ->
  execs veqb vnull w cs = Ok w' -> Forall2 shows w' (aexecs a cs).
Proof.
  induction cs as [|c cs IH]; intros w a w' GC H E; simpl in *.
  - now injection E as <-.
  - destruct (exec veqb vnull w c) as [u| |] eqn:Eu; try discriminate. cbn [bind] in E.
    eapply IH; [|eapply exec_shows; eauto|exact E]. intros c' Hc'. apply GC. now right.
Qed.

Lemma holds_shows w : holds veqb vnull w -> exists a, Forall2 shows w a.
Proof. intros (cs & GC & E). eexists. eapply execs_shows; [exact GC|constructor|exact E]. Qed.

Lemma holds_live w i t : holds veqb vnull w -> nth_error w i = Some (Live t) ->
  exists mn mx d, reach veqb vnull mn mx d t.
Proof.
  intros HW Hi. destruct (holds_shows w HW) as (a & H). pose proof (F2_nth _ _ _ _ _ None H Hi) as S.
  assert (forall b : aobj, shows (Live t) b -> exists mn mx d, reach veqb vnull mn mx d t) as HL.
  { intros [[[[mn mx] d] f]|] HS; [|contradiction]. exists mn, mx, d. apply HS. }
  eapply HL. exact S.
Qed.

Lemma reach_min mn mx d t : reach veqb vnull mn mx d t -> min_key t = Ok mn.
Proof.
  intros R. apply reach_wf in R; [|exact veqb_ok]. destruct (left_right _ _ _ _ _ R) as (vl & E1 & _).
  unfold min_key. now rewrite E1.
Qed.

Lemma nth_some_iff {A} (w : list A) i : (exists x, nth_error w i = Some x) <-> (i < length w)%nat.
Proof.
  split; [intros (x & H); eapply nth_some; eauto|]. intros H. destruct (nth_error w i) eqn:E; eauto.
  apply nth_error_None in E. lia.
Qed.

Lemma exec_defined w c : holds veqb vnull w -> (exists w', exec veqb vnull w c = Ok w') <-> proper_cmd w c.
Proof.
  intros HW. destruct c as [mn mx d|j|j|i j|i j|i j|i o]; cbn [exec proper_cmd].
  - split; eauto.
  - split.
    + intros (w' & E). destruct (nth_error w j) as [[t|]|]; try discriminate. eauto.
    + intros (t & ->). simpl. eauto.
  - rewrite <- nth_some_iff. split; [intros (w' & E)|intros (x & ->); simpl; eauto].
    destruct (nth_error w j); [eauto|discriminate].
  - rewrite <- nth_some_iff. split.
    + intros (w' & E). destruct (nth_error w j) as [[t|]|]; try discriminate. cbn [deref bind copy_obj] in E.
      destruct (nth_error w i); [|discriminate]. eauto.
    + intros ((x & Hi) & t & ->). cbn [deref bind copy_obj]. rewrite Hi. simpl. eauto.
  - rewrite <- !nth_some_iff. split.
    + intros (w' & E). destruct (nth_error w j) as [x|] eqn:Ej; try discriminate. cbn [deref bind] in E.
      split; [|eauto]. destruct (Nat.eq_dec j i) as [->|Hji]; [eauto|].
      rewrite nth_set_other in E by assumption. destruct (nth_error w i); [eauto|discriminate].
    + intros ((x & Hi) & y & Hj). rewrite Hj. cbn [deref bind]. destruct (Nat.eq_dec j i) as [->|Hji].
      * rewrite nth_set_same by (eapply nth_some; eauto). simpl. eauto.
      * rewrite nth_set_other by assumption. rewrite Hi. simpl. eauto.
  - rewrite <- !nth_some_iff. split.
    + intros (w' & E). destruct (nth_error w i); [|discriminate]. destruct (nth_error w j); [|discriminate]. eauto.
    + intros ((x & ->) & y & ->). simpl. eauto.
  - split.
    + intros (w' & E). destruct (nth_error w i) as [x|] eqn:Ei; [|discriminate]. cbn [deref bind] in E.
      destruct x as [t|]; cbn [call] in E.
      * left. destruct (holds_live w i t HW Ei) as (mn & mx & d & R). exists t, mn. split; [reflexivity|].
        split; [eapply reach_min; eauto|]. destruct (step veqb t o) as [t'| |] eqn:Es; try discriminate.
        apply (C01_defined_calls V veqb vnull veqb_ok mn mx d t o R). exists t'. split; [exact Es|].
        destruct R as (Hlt & ops & HR). split; [assumption|]. exists (ops ++ [o]). rewrite run_app, HR. exact Es.
      * right. split; [reflexivity|]. destruct o as [s e v|s e v|[p|] s e v|s e|p n k| | |]; simpl in E; try discriminate; auto;
          (destruct (_ <=? _) eqn:El in E; [lia|discriminate]).
    + intros [(t & mn & Hi & Hm & HP)|(Hi & HP)]; rewrite Hi; cbn [deref bind call].
      * destruct (holds_live w i t HW Hi) as (mn' & mx & d & R). rewrite (reach_min _ _ _ _ R) in Hm. injection Hm as ->.
        apply (C01_defined_calls V veqb vnull veqb_ok mn mx d t o R) in HP. destruct HP as (t' & -> & _). simpl. eauto.
      * destruct o as [s e v|s e v|[p|] s e v|s e|p n k| | |]; simpl; try contradiction; eauto;
          (replace (_ <=? _) with true by lia; simpl; eauto).
Qed.
End P.

(** * Theorems *)

(** Concrete program: a tree is built, copied, moved and assigned. *)
Definition fm_cmds : list (@cmd Z) :=
  [CNew 0 100 0; CCall 0 (OFront 10 20 1); CCall 0 OBuild; CCopy 0; CCall 1 (OBack 15 40 2); CMove 0; CAssign 0 1;
   CCall 0 (OShiftL 0 10); CSwap 1 2; CNew 5 9 7; CMoveAssign 0 3; CMoveAssign 1 1; CCall 3 OBuild].
Definition fm_world : list (@obj Z) :=
  match execs Z.eqb 0 [] fm_cmds with Ok w => w | _ => [] end.
Example fm_holds : holds Z.eqb 0 fm_world.
Proof.
  exists fm_cmds. split; [|vm_compute; reflexivity].
  intros c H. unfold fm_cmds in H. repeat (destruct H as [<-|H]; [simpl; try lia; exact I|]). destruct H.
Qed.

(** C80: whatever a program does with its trees, each holds what the calls on it, the
    copies and the moves say, and a tree that was moved from holds nothing. *)
Theorem C80_histories : forall (V : Type) (veqb : V -> V -> bool) (vnull : V), eqb_ok veqb ->
  forall cs w, (forall c, In c cs -> good_cmd c) -> execs veqb vnull [] cs = Ok w ->
  Forall2 (shows veqb vnull) w (aexecs [] cs).
Proof. intros V veqb vnull Hok cs w GC E. eapply execs_shows; eauto. Qed.
Example C80_histories_ex : map (fun x => search_obj x 15) fm_world =
    [Ok None; Ok (Some (1%nat, 1, 10, 20)); Ok (Some (2%nat, 2, 15, 40)); Undef].
Proof. vm_compute. reflexivity. Qed.

(** C80: the commands with defined behaviour are exactly those that do not read a tree that
    was moved from (and make only defined calls). *)
Theorem C80_defined : forall (V : Type) (veqb : V -> V -> bool) (vnull : V), eqb_ok veqb ->
  forall w c, holds veqb vnull w -> (exists w', exec veqb vnull w c = Ok w') <-> proper_cmd w c.
Proof. exact @exec_defined. Qed.
Example C80_defined_ex : proper_cmd fm_world (CAssign 3 1) /\ ~ proper_cmd fm_world (CCopy 3).
Proof. vm_compute. split; [split; [lia|eauto]|]. intros (t & H). discriminate. Qed.

(** C80: a move takes the search tree along, so search_tree answers at the target as it did
    at the source; a copy is equal to its source but has no search tree.  Neither touches
    another tree. *)
Theorem C80_search_tree : forall (V : Type) (veqb : V -> V -> bool) (vnull : V), eqb_ok veqb ->
  forall w i j w', holds veqb vnull w -> i <> j ->
  (exec veqb vnull w (CMoveAssign i j) = Ok w' ->
     nth_error w' i = nth_error w j /\ nth_error w' j = Some Gone) /\
  (exec veqb vnull w (CAssign i j) = Ok w' ->
     nth_error w' j = nth_error w j /\
     exists x y, nth_error w j = Some x /\ nth_error w' i = Some y /\ eqb_obj veqb y x = true /\
       forall k, search_obj y k = search_obj x k /\ search_tree_obj y k = Ok None) /\
  (exec veqb vnull w (CSwap i j) = Ok w' -> nth_error w' i = nth_error w j /\ nth_error w' j = nth_error w i) /\
  (forall c k, (c = CMoveAssign i j \/ c = CAssign i j \/ c = CSwap i j) -> exec veqb vnull w c = Ok w' ->
     k <> i -> k <> j -> nth_error w' k = nth_error w k).
Proof.
  intros V veqb vnull Hok w i j w' HW Hij.
  assert (forall c, (c = CMoveAssign i j \/ c = CAssign i j \/ c = CSwap i j) -> exec veqb vnull w c = Ok w' ->
    (i < length w)%nat /\ (j < length w)%nat) as HB.
  { intros c Hc E. assert (proper_cmd w c) as HP by (apply (exec_defined veqb vnull Hok w c HW); eauto).
    destruct Hc as [->|[->| ->]]; cbn [proper_cmd] in HP; auto.
    destruct HP as (H1 & t & H2). split; [assumption|]. eapply nth_some; eauto. }
  split; [|split; [|split]].
  - intros E. destruct (HB _ (or_introl eq_refl) E) as [Hi Hj]. cbn [exec] in E.
    destruct (nth_error w j) as [x|] eqn:Ej; [|discriminate]. cbn [deref bind] in E.
    destruct (nth_error (set_nth j Gone w) i); [|discriminate]. injection E as <-.
    rewrite nth_set_same by (now rewrite set_nth_length). split; [reflexivity|].
    rewrite nth_set_other by assumption. now apply nth_set_same.
  - intros E. destruct (HB _ (or_intror (or_introl eq_refl)) E) as [Hi Hj]. cbn [exec] in E.
    destruct (nth_error w j) as [[t|]|] eqn:Ej; try discriminate. cbn [deref bind copy_obj] in E.
    destruct (nth_error w i); [|discriminate]. injection E as <-. rewrite nth_set_other by assumption. split; [assumption|].
    exists (Live t), (Live (fst_copy t)). split; [reflexivity|]. split; [now apply nth_set_same|].
    destruct (C09_copy V veqb Hok t) as (H1 & _ & H3). split; [exact H1|].
    intros k. split; [apply H3|]. now apply search_tree_invalid.
  - intros E. destruct (HB _ (or_intror (or_intror eq_refl)) E) as [Hi Hj]. cbn [exec] in E.
    destruct (nth_error w i) as [x|] eqn:Ei; [|discriminate]. destruct (nth_error w j) as [y|] eqn:Ej; [|discriminate].
    injection E as <-. split.
    + rewrite nth_set_other by auto. now apply nth_set_same.
    + apply nth_set_same. now rewrite set_nth_length.
  - intros c k Hc E Hk1 Hk2. destruct Hc as [->|[->| ->]]; cbn [exec] in E.
    + destruct (nth_error w j) as [x|]; [|discriminate]. cbn [deref bind] in E.
      destruct (nth_error (set_nth j Gone w) i); [|discriminate]. injection E as <-.
      now rewrite !nth_set_other by auto.
    + destruct (nth_error w j) as [[t|]|]; try discriminate. cbn [deref bind copy_obj] in E.
      destruct (nth_error w i); [|discriminate]. injection E as <-. now rewrite !nth_set_other by auto.
    + destruct (nth_error w i) as [x|]; [|discriminate]. destruct (nth_error w j) as [y|]; [|discriminate].
      injection E as <-. now rewrite !nth_set_other by auto.
Qed.
Example C80_search_tree_ex : map (fun x => search_tree_obj x 15) fm_world =
    [Ok None; Ok (Some (1%nat, 1, 10, 20)); Ok None; Ok None] /\
  (exists w', exec Z.eqb 0 fm_world (CMoveAssign 3 1) = Ok w').
Proof. split; [vm_compute; reflexivity|]. eexists. vm_compute. reflexivity. Qed.

(** C80: assigning a tree to itself keeps its content; the copying assignment drops the
    search tree, the moving one keeps all. *)
Theorem C80_self : forall (V : Type) (veqb : V -> V -> bool) (vnull : V), eqb_ok veqb ->
  forall w i t, holds veqb vnull w -> nth_error w i = Some (Live t) ->
  exec veqb vnull w (CMoveAssign i i) = Ok w /\ exec veqb vnull w (CSwap i i) = Ok w /\
  exists w' t', exec veqb vnull w (CAssign i i) = Ok w' /\ nth_error w' i = Some (Live t') /\
    fst_eqb veqb t' t = true /\ forall k, search t' k = search t k /\ search_tree t' k = Ok None.
Proof.
  intros V veqb vnull Hok w i t HW Hi. pose proof (nth_some _ _ _ Hi) as Hl. split; [|split].
  - cbn [exec]. rewrite Hi. cbn [deref bind]. rewrite nth_set_same by assumption. cbn [deref bind].
    rewrite set_set. now rewrite set_id.
  - cbn [exec]. rewrite Hi. cbn [deref bind]. rewrite set_set. now rewrite set_id.
  - cbn [exec]. rewrite Hi. cbn [deref bind copy_obj]. exists (set_nth i (Live (fst_copy t)) w), (fst_copy t).
    split; [reflexivity|]. split; [now apply nth_set_same|].
    destruct (C09_copy V veqb Hok t) as (H1 & _ & H3). split; [exact H1|].
    intros k. split; [apply H3|]. now apply search_tree_invalid.
Qed.
Example C80_self_ex : exists t, nth_error fm_world 1 = Some (Live t) /\ search_tree t 15 = Ok (Some (1%nat, 1, 10, 20)).
Proof. eexists. split; [vm_compute; reflexivity|]. vm_compute. reflexivity. Qed.

(** One query for all the theorems of this file. *)
Definition FstMoveProps_theorems := (@C80_histories, @C80_defined, @C80_search_tree, @C80_self).
Print Assumptions FstMoveProps_theorems.
