(** Properties of copy-on-write in multi_type_vector (C51).

    The specification is in MtvCowSpec.v: a program is a list of statements over any
    number of containers, and every container is a sequence of its own.  The model in
    MtvCow.v has addresses: containers that share refer to the same blocks, what one
    container writes into a block shows in the others, and touching a deleted block
    is undefined behaviour. *)
From Coq Require Import List ZArith Lia Bool Permutation.
From Verif Require Import Base MtvModel MtvModel2 MtvSpec MtvProofs MtvTac MtvWrap MtvBridge MtvBridge2
  MtvIds MtvCow MtvCowSpec MtvCowProofs MtvCowProofs2 MtvCowProofs3 MtvProps.
Import ListNotations.
Open Scope nat_scope.

Section T.
Context {V : Type}.
Variable cat : V -> nat.
Variable managed : nat -> bool.
Variable clone : V -> V.
Variable cloneable copyable : nat -> bool.
(** Cloning a value keeps its type. *)
Hypothesis Hclone : forall v, cat (clone v) = cat v.
Notation world := (@world V).
Notation Inv := (@Inv V).
Notation Abs := (Abs cat).
Notation wexec := (wexec cat managed clone cloneable copyable).
Notation wrun := (wrun cat managed clone cloneable copyable).
Notation arun := (arun cat clone cloneable copyable).
Notation aspec := (aspec cat clone cloneable copyable).
Notation wlegal := (wlegal cat managed clone).
Notation wlegal_all := (wlegal_all cat managed clone cloneable copyable).
Notation wgiven_all := (wgiven_all cat managed clone cloneable copyable).
Notation wtaken_all := (wtaken_all cat managed clone cloneable copyable).
Notation wclean := (wclean cat clone cloneable copyable).
Notation wleaky := (wleaky cat managed clone).
Notation wexempt := (wexempt cat clone).

(** ** Helpers *)
Lemma sees_abs w a x : Inv w -> Abs w a -> sees x (cell_at x a) w.
Proof using.
  intros I A. destruct (cell_at x a) as [l sh| |] eqn:Ec; [|exact Logic.I|exact Logic.I].
  destruct (Abs_live cat w a x A) as (v & Hx & Ec' & G & Lx); [rewrite Ec; exact Logic.I|].
  assert (l = flat (body v)) as -> by congruence.
  unfold sees, vec_size, vec_get. rewrite (fetch_ok None w x v I Hx). cbn [bind].
  pose proof (len_flat cat (body v) G) as Hl. split; [unfold size; congruence|]. split.
  - intros i e Hi. rewrite (get_eq cat _ i G), Hi. reflexivity.
  - intros i Hi. rewrite (get_eq cat _ i G). apply nth_error_None in Hi. now rewrite Hi.
Qed.

Lemma start_ok os : wlegal_all os [] ->
  exists w, wrun os nothing = Ok (w, snd (arun os [])) /\
    Done cat managed nothing w (fst (arun os [])) (wgiven_all os []) (wtaken_all os [])
      (wclean wleaky os []) (wclean wexempt os []).
Proof using Hclone.
  intros L. apply (run_all_ok cat managed clone cloneable copyable Hclone os nothing []); auto.
  - apply Inv_nothing.
  - constructor.
Qed.

Lemma run_inv os w es : wlegal_all os [] -> wrun os nothing = Ok (w, es) ->
  Inv w /\ Abs w (fst (arun os [])) /\ es = snd (arun os []) /\
  (wclean wleaky os [] -> forall p, T managed p w + cnt p (wtaken_all os []) = cnt p (wgiven_all os [])) /\
  (wclean wexempt os [] -> Ebal w).
Proof using Hclone.
  intros L E. destruct (start_ok os L) as (w' & E' & I & A & O & Ev).
  assert (w' = w /\ snd (arun os []) = es) as [-> <-] by (rewrite E in E'; injection E' as -> ->; auto).
  split; [exact I|]. split; [exact A|]. split; [reflexivity|]. split.
  - intros H p. specialize (O H p). exact O.
  - intros H. apply Ev; [|exact H]. intros [|x] v Hx; discriminate.
Qed.

(** ** Every program behaves as if the containers were separate *)

(** No undefined behaviour; the exceptions and, for every container, what size() and
    get() answer are those of the specification. *)
Theorem C51_histories : forall os, wlegal_all os [] ->
  exists w, wrun os nothing = Ok (w, snd (arun os [])) /\
    forall x, sees x (cell_at x (fst (arun os []))) w.
Proof using Hclone.
  intros os L. destruct (start_ok os L) as (w & E & I & A & _). exists w. split; [exact E|].
  intros x. now apply sees_abs.
Qed.

(** The containers whose content a statement may change. *)
Definition changes (o : @wop V) : list nat :=
  match o with
  | WMake _ | WRange _ _ | WClone _ | WCopy _ => []
  | WMove x | WDestroy x | WAssign x _ | WDetach x | WOp x _ => [x]
  | WSwap x y | WMoveAssign x y => [x; y]
  end.
(** The sequence a container shows. *)
Definition elements (c : @cell V) : option (list (option V)) :=
  match c with Live l _ => Some l | _ => None end.

Lemma cell_set_other x y (c : @cell V) a : x <> y -> cell_at x (set_nth y c a) = cell_at x a.
Proof using. apply cell_at_other. Qed.
Lemma cell_snoc_live x (c : @cell V) a : live (cell_at x a) -> cell_at x (a ++ [c]) = cell_at x a.
Proof using.
  intros H. apply cell_at_snoc. apply live_lt. destruct (cell_at x a); congruence || contradiction.
Qed.
Lemma cell_set_same_el x (l : list (option V)) sh sh' a :
  cell_at x a = Live l sh -> elements (cell_at x (set_nth x (Live l sh') a)) = Some l.
Proof using.
  intros H. rewrite cell_at_set; [reflexivity|]. apply live_lt. congruence.
Qed.

Lemma keeps o a x : live (cell_at x a) -> ~ In x (changes o) ->
  elements (cell_at x (fst (aspec o a))) = elements (cell_at x a).
Proof using.
  intros L N.
  assert (forall y l sh sh', cell_at y a = Live l sh ->
            live (cell_at x (set_nth y (Live l sh') a)) /\
            elements (cell_at x (set_nth y (Live l sh') a)) = elements (cell_at x a)) as K.
  { intros y l sh sh' Hy. destruct (Nat.eq_dec x y) as [->|Nx].
    - rewrite cell_at_set by (apply live_lt; congruence). rewrite Hy. split; [exact Logic.I|reflexivity].
    - rewrite cell_set_other by auto. auto. }
  destruct o as [n|n vs|y|y|y|y|y z|y z|y z|y|y o]; cbn [changes In] in N; cbn [MtvCowSpec.aspec].
  - cbn [fst]. now rewrite cell_snoc_live.
  - destruct (_ || _); cbn [fst]; [|reflexivity]. now rewrite cell_snoc_live.
  - destruct (cell_at y a) as [l sh| |] eqn:Ey; cbn [fst]; try reflexivity.
    destruct (K y l sh true Ey) as [K1 K2]. rewrite cell_snoc_live by exact K1. exact K2.
  - destruct (cell_at y a) as [l sh| |] eqn:Ey; try reflexivity.
    destruct (every cat copyable l); cbn [fst]; [|reflexivity].
    destruct (K y l sh true Ey) as [K1 K2]. rewrite cell_snoc_live by exact K1. exact K2.
  - cbn [fst]. rewrite cell_snoc_live; rewrite cell_set_other by (intros Hxy; apply N; auto); auto.
  - cbn [fst]. rewrite cell_set_other by (intros Hxy; apply N; auto); auto.
  - cbn [fst]. rewrite !cell_set_other by (intros Hxy; apply N; auto); auto.
  - destruct (cell_at z a) as [l sh| |] eqn:Ez; try reflexivity.
    destruct (every cat copyable l); cbn [fst]; [|reflexivity].
    destruct (K z l sh true Ez) as [K1 K2].
    rewrite cell_snoc_live; rewrite cell_set_other by (intros Hxy; apply N; auto); auto.
  - cbn [fst]. rewrite cell_snoc_live; rewrite !cell_set_other by (intros Hxy; apply N; auto); auto.
  - destruct (cell_at y a) as [l sh| |]; try reflexivity.
    destruct (_ && _); cbn [fst]; [reflexivity|]. rewrite cell_set_other by (intros Hxy; apply N; auto); auto.
  - destruct (cell_at y a) as [l sh| |]; [destruct (aop _ _ _ _ _ _)| |]; cbn [fst]; rewrite cell_set_other by (intros Hxy; apply N; auto); auto.
Qed.

(** Whatever was shared before: a statement changes what a container shows only if
    it names it as one to change. *)
Theorem C51_independent : forall os w es o w' e x l sh,
  wlegal_all os [] -> wrun os nothing = Ok (w, es) ->
  cell_at x (fst (arun os [])) = Live l sh ->
  wlegal o (fst (arun os [])) -> wexec o w = Ok (w', e) -> ~ In x (changes o) ->
  vec_size x w' = vec_size x w /\ forall i, vec_get x i w' = vec_get x i w.
Proof using Hclone.
  intros os w es o w' e x l sh L E Hx Lo Eo N.
  destruct (run_inv os w es L E) as (I & A & _).
  destruct (step_all_ok cat managed clone cloneable copyable Hclone o w _ I A Lo) as (w1 & E1 & I1 & A1 & _).
  rewrite Eo in E1. injection E1 as <- _.
  pose proof (keeps o (fst (arun os [])) x ltac:(rewrite Hx; exact Logic.I) N) as K. rewrite Hx in K. cbn [elements] in K.
  pose proof (sees_abs w _ x I A) as S0. pose proof (sees_abs w' _ x I1 A1) as S1. rewrite Hx in S0.
  destruct (cell_at x (fst (aspec o (fst (arun os []))))) as [l1 sh1| |]; cbn [elements] in K; try discriminate.
  injection K as ->. cbn [sees] in S0, S1. destruct S0 as (Z0 & G0 & O0), S1 as (Z1 & G1 & O1).
  split; [congruence|]. intros i. destruct (nth_error l i) as [v|] eqn:Ei.
  - rewrite (G0 i v Ei), (G1 i v Ei). reflexivity.
  - apply nth_error_None in Ei. now rewrite (O0 i Ei), (O1 i Ei).
Qed.

(** A copy or clone is a new container that shows the same. *)
Theorem C51_copy : forall os w es o x l sh,
  wlegal_all os [] -> wrun os nothing = Ok (w, es) ->
  cell_at x (fst (arun os [])) = Live l sh ->
  o = WClone x \/ (o = WCopy x /\ every cat copyable l = true) ->
  exists w', wexec o w = Ok (w', None) /\
    sees x (Live l true) w' /\ sees (length (vecs w)) (Live l true) w'.
Proof using Hclone.
  intros os w es o x l sh L E Hx Ho. destruct (run_inv os w es L E) as (I & A & _).
  assert (wlegal o (fst (arun os []))) as Lo.
  { destruct Ho as [->|[-> _]]; cbn [MtvCowSpec.wlegal]; rewrite Hx; exact Logic.I. }
  destruct (step_all_ok cat managed clone cloneable copyable Hclone o w _ I A Lo) as (w1 & E1 & I1 & A1 & _).
  assert (aspec o (fst (arun os [])) = (set_nth x (Live l true) (fst (arun os [])) ++ [Live l true], None)) as Ea.
  { destruct Ho as [->|[-> Hc]]; cbn [MtvCowSpec.aspec]; rewrite Hx; [reflexivity|]. now rewrite Hc. }
  rewrite Ea in *. cbn [fst snd] in *. exists w1. split; [exact E1|].
  pose proof (Abs_len cat w _ A) as Hl. assert (x < length (fst (arun os []))) as Lx by (apply live_lt; congruence).
  split.
  - pose proof (sees_abs w1 _ x I1 A1) as S. rewrite cell_at_snoc in S by (rewrite set_nth_length; exact Lx).
    rewrite cell_at_set in S by exact Lx. exact S.
  - pose proof (sees_abs w1 _ (length (vecs w)) I1 A1) as S. rewrite <- Hl in *.
    rewrite <- (set_nth_length x (Live l true) (fst (arun os []))) in S at 2. rewrite cell_at_new in S. exact S.
Qed.

(** What does not work on shared storage is refused, and then nothing changes:
    release, changing elements that cannot be cloned, copying elements that cannot be
    copied. *)
Theorem C51_refused : forall os w es o x l sh,
  wlegal_all os [] -> wrun os nothing = Ok (w, es) ->
  cell_at x (fst (arun os [])) = Live l sh -> wlegal o (fst (arun os [])) ->
  (forall ro, o = WOp x ro -> is_release ro = true -> sh = true -> wexec o w = Ok (w, Some E_shared_block)) /\
  (forall ro, o = WOp x ro -> is_release ro = false -> ro <> OClear -> quick ro l = None -> sh = true ->
     every cat cloneable l = false -> wexec o w = Ok (w, Some E_element_block)) /\
  (forall y, o = WCopy x \/ o = WAssign y x -> every cat copyable l = false -> wexec o w = Ok (w, Some E_element_block)).
Proof using Hclone.
  intros os w es o x l sh L E Hx Lo. destruct (run_inv os w es L E) as (I & A & _).
  destruct (Abs_live cat w _ x A) as (v & Hv & Ev & G & Lx); [rewrite Hx; exact Logic.I|].
  assert (l = flat (body v)) as -> by congruence. assert (sh = flag v) as -> by congruence.
  split; [|split].
  - intros ro -> Hr Hs. cbn [MtvCowSpec.wexec]. unfold vec_op. rewrite (fetch_ok None w x v I Hv). cbn [bind].
    unfold flag in Hs. destruct (store v) as [h|] eqn:Sv; [|discriminate].
    destruct ro; cbn in Hr; try discriminate; reflexivity.
  - intros ro -> Hr Nc Hq Hs Hcl. cbn [MtvCowSpec.wexec]. unfold vec_op. rewrite (fetch_ok None w x v I Hv). cbn [bind].
    rewrite (early_quick cat ro (body v) G), Hq. unfold flag in Hs. destruct (store v) as [h|] eqn:Sv; [|discriminate].
    rewrite Hr. rewrite (aop_main ro) by exact Nc.
    destruct (detach_ok cat managed clone cloneable Hclone w _ x v h I A Hv Lx Sv G) as [D _].
    now rewrite (D Hcl).
  - intros y Ho Hc. pose proof (copy_ok cat managed copyable w _ x v I A Hv Lx G) as C. rewrite Hc in C.
    destruct Ho as [->| ->]; cbn [MtvCowSpec.wexec]; [exact C|].
    cbn [MtvCowSpec.wlegal] in Lo. destruct (Abs_at cat w _ y A (proj1 Lo)) as (u & Hu & _).
    unfold assign_vec. rewrite (fetch_ok None w y u I Hu). cbn [bind]. rewrite C. reflexivity.
Qed.

(** ** Ownership *)
Lemma lsum_le {A} (f : A -> nat) x a l : nth_error l x = Some a -> f a <= lsum f l.
Proof using.
  revert x. induction l as [|b l IH]; intros [|x]; cbn; try discriminate.
  - intros [= ->]. lia.
  - intros H. specialize (IH x H). lia.
Qed.
Definition ownv (p : V -> bool) (u : option (@vec V)) : nat :=
  match u with
  | Some v => match store v with None => cnt p (owned managed (blocks (body v))) | Some _ => 0 end
  | None => 0
  end.
Lemma T_split p (w : world) : T managed p w = cnt p (deleted w) + lsum (ownv p) (vecs w) + lsum (cst managed p) (stores w).
Proof using.
  unfold T, deleted. rewrite cnt_app. enough (lsum (cv managed p) (vecs w) =
    cnt p (flat_map (fun u => match u with Some v => freed (body v) | None => [] end) (vecs w)) + lsum (ownv p) (vecs w)) by lia.
  induction (vecs w) as [|u l IH]; [reflexivity|]. cbn [lsum flat_map]. rewrite cnt_app, IH.
  destruct u as [v|]; cbn [cv ownv cnt]; [|lia]. lia.
Qed.

(** Objects handed over or cloned are deleted, handed back, or still held; in
    particular no object is deleted twice, and none that a container still shows.
    Missing for the full statement: programs with a range set that leaks (finding
    M3, [wleaky]) and with a resize as in finding M2 (part of [wlegal_all]). *)
Theorem C51_owned_once_partial : forall (eq_dec : forall x y : V, {x = y} + {x <> y}) os w es x l sh,
  wlegal_all os [] -> wclean wleaky os [] -> wrun os nothing = Ok (w, es) ->
  cell_at x (fst (arun os [])) = Live l sh ->
  exists others, Permutation (wgiven_all os [])
    (deleted w ++ wtaken_all os [] ++ objects cat managed l ++ others).
Proof using Hclone.
  intros eq_dec os w es x l sh L C E Hx. destruct (run_inv os w es L E) as (I & A & _ & O & _).
  specialize (O C).
  destruct (Abs_live cat w _ x A) as (v & Hv & Ev & G & Lx); [rewrite Hx; exact Logic.I|].
  assert (l = flat (body v)) as -> by congruence.
  set (part := deleted w ++ wtaken_all os [] ++ objects cat managed (flat (body v))).
  assert (forall p, cnt p part <= cnt p (wgiven_all os [])) as Le.
  { intros p. specialize (O p). rewrite T_split in O. unfold part. rewrite !cnt_app.
    rewrite <- (owned_flat cat managed _ G).
    destruct (store v) as [h|] eqn:Sv.
    - pose proof (lsum_le (cst managed p) h _ (stores w) (ib_ref _ _ I x v h Hv Sv)) as H. cbn [cst] in H. lia.
    - pose proof (lsum_le (ownv p) x _ (vecs w) Hv) as H. cbn [ownv] in H. rewrite Sv in H. lia. }
  assert (forall a b : list V, (forall p, cnt p a <= cnt p b) -> exists c, Permutation b (a ++ c)) as Sub.
  { clear - eq_dec. induction a as [|v a IH]; intros b Hb; [exists b; reflexivity|].
    assert (In v b) as Hin.
    { specialize (Hb (fun y => if eq_dec y v then true else false)). cbn [cnt] in Hb. cbv beta in Hb.
      destruct (eq_dec v v) as [_|N]; [|congruence].
      destruct (in_dec eq_dec v b) as [H|H]; [exact H|exfalso].
      assert (cnt (fun y => if eq_dec y v then true else false) b = 0) as Z.
      { clear - H. induction b as [|y b IH]; [reflexivity|]. cbn [cnt].
        destruct (eq_dec y v) as [->|_]; [exfalso; apply H; left; reflexivity|]. rewrite IH; [reflexivity|].
        intros H'. apply H. right. exact H'. }
      cbn [bn] in Hb. lia. }
    apply in_split in Hin as (b1 & b2 & ->). destruct (IH (b1 ++ b2)) as (c & Hc).
    { intros p. specialize (Hb p). rewrite cnt_app in *. cbn [cnt] in Hb. lia. }
    exists c. rewrite <- Permutation_middle. cbn [app]. now constructor. }
  destruct (Sub part (wgiven_all os []) Le) as (c & Hc). exists c. unfold part in Hc.
  now rewrite <- !app_assoc in Hc.
Qed.

(** When all the containers are gone, every object was deleted or handed back,
    exactly once. *)
Theorem C51_all_freed_partial : forall (eq_dec : forall x y : V, {x = y} + {x <> y}) os w es,
  wlegal_all os [] -> wclean wleaky os [] -> wrun os nothing = Ok (w, es) ->
  (forall c, In c (fst (arun os [])) -> c = Dead) ->
  Permutation (wgiven_all os []) (deleted w ++ wtaken_all os []).
Proof using Hclone.
  intros eq_dec os w es L C E Hd. destruct (run_inv os w es L E) as (I & A & _ & O & _).
  specialize (O C).
  assert (forall x v, vat w x v -> False) as NV.
  { intros x v Hv. assert (x < length (fst (arun os []))) as Lx by (rewrite (Abs_len cat w _ A); eapply vat_lt; eauto).
    destruct (F2_nth (crel cat) _ _ x Dead A Lx) as (b & Eb & Rb). unfold vat in Hv. rewrite Hv in Eb. injection Eb as <-.
    rewrite (Hd (nth x (fst (arun os [])) Dead) (nth_In _ _ Lx)) in Rb. exact Rb. }
  assert (forall p, lsum (ownv p) (vecs w) = 0) as Z1.
  { intros p. assert (forall u, In u (vecs w) -> u = None) as Hn.
    { intros [v|] Hu; [|reflexivity]. apply In_nth_error in Hu as (x & Hx). exfalso. eapply NV; exact Hx. }
    clear - Hn. induction (vecs w) as [|u l IH]; [reflexivity|]. cbn [lsum].
    rewrite (Hn u (or_introl eq_refl)), IH; [reflexivity|]. intros u' Hu'. apply Hn. right. exact Hu'. }
  assert (forall p, lsum (cst managed p) (stores w) = 0) as Z2.
  { intros p. assert (forall u, In u (stores w) -> u = None) as Hn.
    { intros [es'|] Hu; [|reflexivity]. apply In_nth_error in Hu as (h & Hh). exfalso.
      destruct (ib_used _ _ I h es' Hh ltac:(discriminate)) as (y & z & Hy & _). eapply NV; exact Hy. }
    clear - Hn. induction (stores w) as [|u l IH]; [reflexivity|]. cbn [lsum].
    rewrite (Hn u (or_introl eq_refl)), IH; [reflexivity|]. intros u' Hu'. apply Hn. right. exact Hu'. }
  apply (Permutation_count_occ eq_dec). intros v.
  assert (forall l : list V, count_occ eq_dec l v = cnt (fun x => if eq_dec x v then true else false) l) as Hc.
  { induction l as [|x l IH]; cbn; [reflexivity|]. destruct (eq_dec x v); cbn; lia. }
  rewrite !Hc, cnt_app. specialize (O (fun x => if eq_dec x v then true else false)).
  rewrite T_split, Z1, Z2 in O. lia.
Qed.

(** ** Events *)

(** Each container is told of the blocks it acquires and releases, also when it
    starts or stops to share them.  Missing for the full statement: findings M1 and
    M8 of single containers ([wexempt]). *)
Theorem C51_events_partial : forall os w es x v,
  wlegal_all os [] -> wclean wexempt os [] -> wrun os nothing = Ok (w, es) ->
  nth_error (vecs w) x = Some (Some v) ->
  forall p, count p (acq (body v)) = count p (rel (body v)) + count p (blocks_held (body v)).
Proof using Hclone.
  intros os w es x v L C E Hx p. destruct (run_inv os w es L E) as (_ & _ & _ & _ & Ev).
  destruct (Ev C x v Hx) as [_ H]. rewrite <- !cnt_count. exact (H p).
Qed.

End T.

(** ** Concrete cases *)

(** Types 5 and above are managed pointers; type 6 can neither be copied nor cloned,
    type 7 can be cloned but not copied. *)
Definition ccopy (c : nat) : bool := (c <? 6) || (7 <? c).
Definition cclone (c : nat) : bool := negb (c =? 6).
Notation crun := (wrun xcat xman xdup cclone ccopy).
Notation caspec := (aspec xcat xdup cclone ccopy).
Notation carun := (arun xcat xdup cclone ccopy).
Notation clegal_all := (wlegal_all xcat xman xdup cclone ccopy).

Lemma clegal_cons o os (a a' : list (@cell xv)) :
  wlegal xcat xman xdup o a -> fst (caspec o a) = a' -> clegal_all os a' -> clegal_all (o :: os) a.
Proof. intros H1 <- H2. split; auto. Qed.
Lemma cclean_cons bad o os (a a' : list (@cell xv)) :
  ~ bad o a -> fst (caspec o a) = a' -> wclean xcat xdup cclone ccopy bad os a' ->
  wclean xcat xdup cclone ccopy bad (o :: os) a.
Proof. intros H1 <- H2. split; auto. Qed.
Ltac clegal :=
  repeat (eapply clegal_cons;
    [cbn [wlegal cell_at nth unshared live]; first [exact I | discriminate | split; [discriminate|exact I]
       | split; discriminate | xone]
    |vm_compute; reflexivity|]); exact I.

(** Copies, a clone, changes on both sides, assignment, move, a refused release, and
    the destruction of some of the containers. *)
Definition os8 : list (@wop xv) :=
  [WRange 3 [(5, 50); (5, 60); (5, 70)]; WCopy 0; WOp 1 (OSet None 1 (1, 10)); WClone 0; WMake 2;
   WAssign 3 0; WOp 2 (OErase 0 0); WMove 0; WOp 5 (ORelease None 0); WOp 1 (ORelease None 0); WDestroy 5;
   WOp 3 (OSet (Some None) 0 (5, 80)); WSwap 1 2; WOp 0 OClear].
Definition w8 : @world xv := match crun os8 nothing with Ok (w, _) => w | _ => nothing end.
Lemma os8_legal : clegal_all os8 [].
Proof. unfold os8. clegal. Qed.
Example C51_case : clegal_all os8 [] /\
  crun os8 nothing = Ok (w8, [None; None; None; None; None; None; None; None; Some E_shared_block;
                              None; None; None; None; None]) /\
  fst (carun os8 []) = [Live [] false; Live [Some (5, 61); Some (5, 71)] false; Live [None; Some (1, 10); Some (5, 71)] false;
                        Live [Some (5, 80); Some (5, 61); Some (5, 71)] false; Dead; Dead] /\
  (forall x, In x [1; 2; 3] -> exists l, cell_at x (fst (carun os8 [])) = Live l false /\ sees x (Live l false) w8).
Proof.
  split; [exact os8_legal|]. split; [vm_compute; reflexivity|]. split; [vm_compute; reflexivity|].
  destruct (C51_histories xcat xman xdup cclone ccopy xdup_cat os8 os8_legal) as (w & E & H).
  assert (w = w8) as -> by (unfold w8; rewrite E; reflexivity).
  intros x Hx. assert (exists l, cell_at x (fst (carun os8 [])) = Live l false) as (l & El).
  { cbn in Hx. destruct Hx as [<-|[<-|[<-|[]]]]; eexists; vm_compute; reflexivity. }
  exists l. split; [exact El|]. specialize (H x). now rewrite El in H.
Qed.

(** Containers 0 and 1 share; changing 1 does not show in 0. *)
Definition os9 : list (@wop xv) := [WRange 3 [(5, 50); (5, 60); (5, 70)]; WOp 0 (OPush (2, 20)); WCopy 0].
Example C51_independent_case : clegal_all os9 [] /\
  cell_at 0 (fst (carun os9 [])) = Live [Some (5, 50); Some (5, 60); Some (5, 70); Some (2, 20)] true /\
  wlegal xcat xman xdup (WOp 1 (OSet None 0 (5, 99))) (fst (carun os9 [])) /\
  ~ In 0 (changes (WOp 1 (OSet None 0 (5, 99) : @op xv))) /\
  exists w w' es, crun os9 nothing = Ok (w, es) /\ vec_get 0 0 w = Ok (Some (5, 50)) /\
    vec_get 1 0 w = Ok (Some (5, 50)) /\
    wexec xcat xman xdup cclone ccopy (WOp 1 (OSet None 0 (5, 99))) w = Ok (w', None) /\
    vec_get 0 0 w' = Ok (Some (5, 50)) /\ vec_get 1 0 w' = Ok (Some (5, 99)).
Proof.
  split; [unfold os9; clegal|]. split; [vm_compute; reflexivity|]. split; [vm_compute; auto|].
  split; [cbn; intros [H|[]]; discriminate|].
  do 3 eexists. split; [vm_compute; reflexivity|]. split; [vm_compute; reflexivity|]. split; [vm_compute; reflexivity|].
  split; [vm_compute; reflexivity|]. split; vm_compute; reflexivity.
Qed.

(** Elements that cannot be copied; elements that cannot be cloned. *)
Example C51_refused_case :
  clegal_all [WRange 2 [(7, 70); (7, 71)]] [] /\
  cell_at 0 (fst (carun [WRange 2 [(7, 70); (7, 71)]] [])) = Live [Some (7, 70); Some (7, 71)] false /\
  every xcat ccopy [Some (7, 70); Some (7, 71)] = false /\
  clegal_all [WRange 2 [(6, 60); (6, 61)]; WClone 0] [] /\
  cell_at 0 (fst (carun [WRange 2 [(6, 60); (6, 61)]; WClone 0] [])) = Live [Some (6, 60); Some (6, 61)] true /\
  every xcat cclone [Some (6, 60); Some (6, 61)] = false /\
  quick (@OPushEmpty xv) [Some (6, 60); Some (6, 61)] = None.
Proof.
  split; [clegal|]. split; [vm_compute; reflexivity|]. split; [vm_compute; reflexivity|].
  split; [clegal|]. split; [vm_compute; reflexivity|]. split; vm_compute; reflexivity.
Qed.

(** All containers destroyed: the three objects and the three clones are deleted. *)
Definition os10 : list (@wop xv) :=
  [WRange 3 [(5, 50); (5, 60); (5, 70)]; WCopy 0; WClone 1; WDestroy 0; WOp 1 (OErase 0 0); WOp 1 (ORelease None 0);
   WDestroy 2; WDestroy 1].
Example C51_owned_case : clegal_all os10 [] /\ wclean xcat xdup cclone ccopy (wleaky xcat xman xdup) os10 [] /\
  wclean xcat xdup cclone ccopy (wexempt xcat xdup) os10 [] /\
  (forall c, In c (fst (carun os10 [])) -> c = Dead) /\
  wgiven_all xcat xman xdup cclone ccopy os10 [] = [(5, 50); (5, 60); (5, 70); (5, 51); (5, 61); (5, 71)] /\
  wtaken_all xcat xman xdup cclone ccopy os10 [] = [(5, 61)] /\
  exists w es, crun os10 nothing = Ok (w, es) /\ deleted w = [(5, 50); (5, 60); (5, 70); (5, 51); (5, 71)].
Proof.
  split; [unfold os10; clegal|].
  split; [unfold os10; repeat (eapply cclean_cons; [cbn; tauto|vm_compute; reflexivity|]); exact I|].
  split; [unfold os10; repeat (eapply cclean_cons; [cbn; tauto|vm_compute; reflexivity|]); exact I|].
  split. { intros c Hc. vm_compute in Hc. destruct Hc as [<-|[<-|[<-|[]]]]; reflexivity. }
  split; [vm_compute; reflexivity|]. split; [vm_compute; reflexivity|].
  do 2 eexists. split; vm_compute; reflexivity.
Qed.

(** Finding COW1.  A container stays marked as sharing after its last partner is
    gone.  release() is then refused although nothing is shared, and if the elements
    cannot be cloned (clone() itself does not check) the container cannot be changed
    any more. *)
Theorem C51_sole_owner_refuted :
  exists (os : list (@wop xv)) w es, clegal_all os [] /\ crun os nothing = Ok (w, es) /\
    (forall e, In e es -> e = None) /\
    fst (carun os []) = [Live [Some (6, 60); Some (6, 61)] true; Dead] /\
    wexec xcat xman xdup cclone ccopy (WOp 0 (ORelease None 0)) w = Ok (w, Some E_shared_block) /\
    wexec xcat xman xdup cclone ccopy (WOp 0 (OSet None 0 (1, 1))) w = Ok (w, Some E_element_block) /\
    wexec xcat xman xdup cclone ccopy (WOp 0 OPushEmpty) w = Ok (w, Some E_element_block).
Proof.
  exists [WRange 2 [(6, 60); (6, 61)]; WClone 0; WDestroy 1]. do 2 eexists. split; [clegal|].
  split; [vm_compute; reflexivity|]. split; [intros e He; repeat destruct He as [<-|He]; [reflexivity|reflexivity|reflexivity|contradiction]|].
  split; [vm_compute; reflexivity|]. split; [vm_compute; reflexivity|]. split; vm_compute; reflexivity.
Qed.

(** One query for all the theorems of this file. *)
Definition C51_theorems :=
  (@C51_histories, @C51_independent, @C51_copy, @C51_refused, @C51_owned_once_partial,
   @C51_all_freed_partial, @C51_events_partial, C51_sole_owner_refuted).
Print Assumptions C51_theorems.
