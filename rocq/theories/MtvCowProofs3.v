(** Proofs for copy-on-write: statements that create, share and destroy containers,
    and whole programs. *)
From Coq Require Import List ZArith Lia Bool Permutation.
From Verif Require Import Base MtvModel MtvModel2 MtvSpec MtvProofs MtvTac MtvWrap MtvBridge MtvBridge2
  MtvIds MtvCow MtvCowSpec MtvCowProofs MtvCowProofs2.
Import ListNotations.
Open Scope nat_scope.

Section P3.
Context {V : Type}.
Variable cat : V -> nat.
Variable managed : nat -> bool.
Variable clone : V -> V.
Variable cloneable copyable : nat -> bool.
Hypothesis Hclone : forall v, cat (clone v) = cat v.
Notation eblk := (@eblk V).
Notation blk := (@blk V).
Notation st := (@st V).
Notation vec := (@vec V).
Notation world := (@world V).
Notation Inv := (@Inv V).
Notation Abs := (Abs cat).
Notation T := (T managed).
Notation Done := (Done cat managed).
Notation wexec := (wexec cat managed clone cloneable copyable).
Notation aspec := (aspec cat clone cloneable copyable).
Notation wgiven := (wgiven cat managed clone cloneable copyable).
Notation wtaken := (wtaken cat managed clone cloneable copyable).
Notation wcloned := (wcloned cat managed clone cloneable copyable).
Notation wleaky := (wleaky cat managed clone).
Notation wexempt := (wexempt cat clone).
Notation wlegal := (wlegal cat managed clone).

Lemma Done_trans (w w1 w2 : world) a1 a2 i1 o1 i2 o2 (k1 e1 k2 e2 k e : Prop) i o :
  Done w w1 a1 i1 o1 k1 e1 -> Done w1 w2 a2 i2 o2 k2 e2 ->
  (k -> k1 /\ k2) -> (e -> e1 /\ e2) -> i = i1 ++ i2 -> o = o1 ++ o2 -> Done w w2 a2 i o k e.
Proof using.
  intros (I1 & A1 & T1 & E1) (I2 & A2 & T2 & E2) Hk He -> ->. split; [exact I2|]. split; [exact A2|]. split.
  - intros H p. destruct (Hk H) as [H1 H2]. specialize (T1 H1 p). specialize (T2 H2 p). rewrite !cnt_app. lia.
  - intros Eb H. destruct (He H). auto.
Qed.
Lemma Done_weak (w w1 : world) a1 i o (k1 e1 k e : Prop) :
  Done w w1 a1 i o k1 e1 -> (k -> k1) -> (e -> e1) -> Done w w1 a1 i o k e.
Proof using. intros (I1 & A1 & T1 & E1) Hk He. split; [exact I1|]. split; [exact A1|]. split; auto. Qed.

(** ** clear on a sharing container *)
Lemma clear_shared_ok w a x v h :
  Inv w -> Abs w a -> vat w x v -> x < length a -> store v = Some h ->
  exists w', clear_shared managed x h v w = Ok w' /\ Done w w' (set_nth x (Live [] false) a) [] [] True True.
Proof using.
  intros I A Hx Lx Sv. unfold clear_shared, put. set (v' := VEC (with_cs 0 (with_bl [] _)) None).
  assert (InvB (Some h) (WD (set_nth x (Some v') (vecs w)) (stores w) (dead w) (gone w) (wtag w))) as J.
  { eapply replace_own; [apply weaken, I|exact Hx|lia|reflexivity| |].
    - intros b [].
    - intros v0 [= <-]. right. eauto. }
  destruct (let_go_ok managed h _ (blocks (body v)) J) as (w' & E' & I' & V' & T' & A').
  { unfold sat. cbn [stores]. exact (ib_ref _ _ I x v h Hx Sv). }
  exists w'. split; [exact E'|]. split; [exact I'|]. split; [|split].
  - unfold MtvCowProofs.Abs. rewrite V'. cbn [vecs]. apply F2_set; [exact A|]. cbn. repeat split; auto.
  - intros _ p. rewrite A'. unfold MtvCowProofs.T. cbn [gone vecs stores].
    pose proof (lsum_set (cv managed p) x (Some v') (Some v) (vecs w) Hx) as LS.
    assert (cv managed p (Some v) = cnt p (freed (body v))) as C0 by (unfold cv; rewrite Sv; lia).
    assert (cv managed p (Some v') = cnt p (freed (body v))) as C3 by (unfold cv, v'; cbn; lia).
    cbn [cnt]. lia.
  - intros Eb _. apply (Ebal_set w _ x v').
    + intros y u Hy. unfold vat in Hy. rewrite V' in Hy. cbn [vecs] in Hy.
      apply nth_set_inv in Hy as [[E1 E2]|[E1 E2]]; [left; split; congruence|right; exact E2].
    + exact Eb.
    + destruct (Eb x v Hx) as [Cv Bv]. split; [exact Logic.I|].
      intros p. specialize (Bv p). unfold v', fire_released, with_cs, with_bl. cbn [body acq rel bl].
      rewrite !cnt_app, (held_refs (bl (body v))). cbn [refs flat_map cnt]. lia.
Qed.

Lemma early_quick o (s : st) : good cat s -> early o s = quick o (flat s).
Proof using.
  intros G. pose proof (len_flat cat s G) as L. destruct o; cbn [early quick]; try reflexivity.
  - destruct vs as [|v0 vs]; [reflexivity|]. rewrite L. cbn [length].
    destruct (Nat.leb_spec (cs s) (pos + S (length vs) - 1)); destruct (Nat.ltb_spec (pos + length vs) (cs s));
      try reflexivity; lia.
  - destruct (Nat.ltb_spec b a); destruct (Nat.leb_spec a b); try reflexivity; lia.
  - destruct n; reflexivity.
Qed.

Lemma cell_at_set x (c : @cell V) a : x < length a -> cell_at x (set_nth x c a) = c.
Proof using.
  intros H. unfold cell_at. apply nth_error_nth. now apply nth_set_same.
Qed.
Lemma set_cell_id x (c : @cell V) a : cell_at x a = c -> c <> Dead -> set_nth x c a = a.
Proof using.
  intros H N. apply set_nth_id. destruct (nth_error a x) as [c'|] eqn:E.
  - unfold cell_at in H. erewrite nth_error_nth in H by exact E. congruence.
  - exfalso. apply N. rewrite <- H. unfold cell_at. apply nth_overflow. now apply nth_error_None.
Qed.

Definition Step (o : wop) (w : world) (a : list (@cell V)) : Prop :=
  exists w', wexec o w = Ok (w', snd (aspec o a)) /\
    Done w w' (fst (aspec o a)) (wgiven o a ++ wcloned o a) (wtaken o a) (~ wleaky o a) (~ wexempt o a).

Lemma aop_main {B} (o : @op V) (A C : B) : o <> OClear -> match o with OClear => A | _ => C end = C.
Proof using. destruct o; congruence. Qed.

Lemma step_op w a x o : Inv w -> Abs w a -> wlegal (WOp x o) a -> Step (WOp x o) w a.
Proof using Hclone.
  intros I A L. unfold Step. cbn [wlegal] in L. cbn [MtvCowSpec.wexec].
  unfold MtvCowSpec.wgiven, MtvCowSpec.wtaken, MtvCowSpec.wcloned, MtvCowSpec.wleaky, MtvCowSpec.wexempt.
  cbn [MtvCowSpec.aspec]. destruct (cell_at x a) as [l sh| |] eqn:Ec; [| |contradiction].
  2:{ subst o. destruct (Abs_at cat w a x A) as (v & Hx & R & Lx); [congruence|]. rewrite Ec in R. cbn in R.
      destruct R as [Bv Sv]. unfold vec_op. rewrite (fetch_ok None w x v I Hx). cbn [bind early]. rewrite Sv.
      destruct (moved_clear cat managed w a x v I A Hx Lx Bv Sv) as (w' & E & D). exists w'.
      cbn [fst snd given app]. split; [exact E|]. eapply Done_weak; [exact D|tauto|tauto]. }
  destruct (Abs_live cat w a x A) as (v & Hx & Ec' & G & Lx); [rewrite Ec; exact Logic.I|].
  assert (l = flat (body v)) as -> by congruence. assert (sh = flag v) as Ef by congruence. clear Ec'.
  unfold vec_op. rewrite (fetch_ok None w x v I Hx). cbn [bind]. rewrite (early_quick o _ G).
  unfold aop. destruct (quick o (flat (body v))) as [r|] eqn:Eq.
  { exists w. cbn [fst snd]. split; [reflexivity|].
    rewrite (set_cell_id x (Live (flat (body v)) sh) a Ec) by discriminate. rewrite ?Ec.
    assert (given cat managed o = [] \/ r <> None) as Hg.
    { destruct o as [h pos v0|h pos vs|h a0 b0|h pos|h a0 b0| |a0 b0|h pos vs|h pos n|v0| |n| ]; cbn [quick] in Eq; try discriminate; cbn [given]; auto.
      destruct vs; [left; reflexivity|]. destruct (_ <? _); [discriminate|]. right. congruence. }
    assert (taken_back cat managed o (flat (body v)) = []) as Ht.
    { destruct o; cbn [quick] in Eq; try discriminate; reflexivity. }
    replace (match r with Some _ => [] | None => taken_back cat managed o (flat (body v)) end) with (@nil V)
      by (rewrite Ht; destruct r; reflexivity).
    match goal with |- Done _ _ _ (?g ++ ?c) _ _ _ => assert (g = []) as -> by (destruct r; [reflexivity|destruct Hg; congruence]); assert (c = []) as -> by (destruct sh; reflexivity) end.
    apply (Done_refl cat managed w a I A). }
  destruct sh.
  2:{ (* not shared *)
    assert (store v = None) as Sv by (unfold flag in Ef; destruct (store v); [discriminate|reflexivity]).
    rewrite Sv. cbn [andb]. cbn [unshared] in L.
    pose proof (plain_ok cat managed w a x v o I A Hx Lx Sv G L) as P.
    assert ((match o with
             | OClear => (Live [] false, None)
             | _ => match spec o (unshared clone (flat (body v)) false) with
                    | Some l' => (Live l' false, None)
                    | None => (Live (unshared clone (flat (body v)) false) false, Some E_out_of_range)
                    end
             end : @cell V * option exn)
            = match spec o (flat (body v)) with
              | Some l' => (Live l' false, None)
              | None => (Live (flat (body v)) false, Some E_out_of_range)
              end) as Ea.
    { cbn [unshared]. destruct o; reflexivity. }
    rewrite Ea. clear Ea. cbn [unshared].
    destruct (spec o (flat (body v))) as [l'|].
    - destruct P as (w' & E & D). exists w'. cbn [fst snd]. split; [exact E|].
      rewrite app_nil_r. exact D.
    - exists w. cbn [fst snd]. split; [exact P|]. rewrite (set_cell_id x (Live (flat (body v)) false) a Ec) by discriminate.
      apply (Done_refl cat managed w a I A). }
  (* shared *)
  destruct (store v) as [h|] eqn:Sv; [|unfold flag in Ef; rewrite Sv in Ef; discriminate].
  cbn [andb]. destruct (is_release o) eqn:Er.
  { exists w. cbn [fst snd]. split; [reflexivity|]. rewrite (set_cell_id x (Live (flat (body v)) true) a Ec) by discriminate.
    rewrite Ec. apply (Done_refl cat managed w a I A). }
  assert (o = OClear \/ o <> OClear) as [->|No] by (destruct o; (left; reflexivity) || (right; discriminate)).
  { destruct (clear_shared_ok w a x v h I A Hx Lx Sv) as (w' & E & D). exists w'. cbn [fst snd].
    rewrite E. cbn [bind]. split; [reflexivity|]. rewrite cell_at_set by auto.
    cbn [given taken_back app]. eapply Done_weak; [exact D|tauto|tauto]. }
  rewrite !(aop_main o) by exact No.
  destruct (detach_ok cat managed clone cloneable Hclone w a x v h I A Hx Lx Sv G) as [D1 D2].
  destruct (every cat cloneable (flat (body v))) eqn:Ev; cbn [negb].
  - destruct (D2 eq_refl) as (w1 & v1 & E1 & Hx1 & Sv1 & G1 & F1 & Dn). rewrite E1. cbn [bind].
    cbn [unshared] in *. rewrite <- F1 in *.
    pose proof Dn as (I1 & A1 & _).
    assert (x < length (set_nth x (Live (flat (body v1)) false) a)) as Lx1 by (rewrite set_nth_length; exact Lx).
    pose proof (plain_ok cat managed w1 _ x v1 o I1 A1 Hx1 Lx1 Sv1 G1 L) as P.
    destruct (spec o (flat (body v1))) as [l'|].
    + destruct P as (w' & E & D). exists w'. cbn [fst snd]. split; [exact E|].
      rewrite set_nth_twice in D. rewrite cell_at_set by auto. rewrite ?(aop_main o) by exact No.
      assert (taken_back cat managed o (flat (body v)) = [] /\ taken_back cat managed o (flat (body v1)) = []) as [Et1 Et2].
      { destruct o; cbn in Er; try discriminate; auto. }
      rewrite Et1. rewrite Et2 in D.
      destruct D as (J1 & J2 & J3 & J4). destruct Dn as (_ & _ & K3 & K4).
      split; [exact J1|]. split; [exact J2|]. split.
      * intros Hl p. specialize (J3 Hl p). specialize (K3 Logic.I p). rewrite cnt_app. cbn [cnt] in *. lia.
      * intros Eb He. apply J4; auto.
    + exists w1. cbn [fst snd]. split; [exact P|]. rewrite cell_at_set by auto. rewrite ?(aop_main o) by exact No.
      cbn [app]. eapply Done_weak; [exact Dn|tauto|tauto].
  - exists w. cbn [fst snd]. rewrite (D1 eq_refl). cbn [bind]. split; [reflexivity|].
    rewrite (set_cell_id x (Live (flat (body v)) true) a Ec) by discriminate. rewrite Ec.
    apply (Done_refl cat managed w a I A).
Qed.
(** ** Sharing *)
Lemma flatb_every f (b : blk) : okb cat b ->
  forallb (fun x => match x with Some v => f (cat v) | None => true end) (flatb b)
  = match bd b with Some e => f (ecat e) | None => true end.
Proof using.
  intros [Hz Hb]. destruct b as [q z [e|]]; cbn [bd bp bs] in *; unfold flatb; cbn [bd bs].
  - destruct Hb as [Hn Hc]. destruct (ev e) as [|v0 vs] eqn:Ev; [cbn in Hn; lia|].
    assert (forall v, In v (v0 :: vs) -> cat v = ecat e) as Hall.
    { intros v Hv. unfold all_cat in Hc. rewrite forallb_forall in Hc. apply Nat.eqb_eq. auto. }
    destruct (f (ecat e)) eqn:Ece.
    + apply forallb_forall. intros x Hx. apply in_map_iff in Hx as (v & <- & Hv). now rewrite (Hall v Hv).
    + cbn. rewrite (Hall v0 (or_introl eq_refl)), Ece. reflexivity.
  - clear. induction z; cbn; auto.
Qed.
Lemma blocks_every f : forall (l : list blk) p, wfl cat p l ->
  existsb (fun e => negb (f (ecat e))) (flat_map (fun b => match bd b with Some e => [e] | None => [] end) l)
  = negb (every cat f (flatl l)).
Proof using.
  induction l as [|b l IH]; intros p Hw; [reflexivity|].
  destruct Hw as (Hp & Hb & Hl). specialize (IH _ Hl). cbn [flat_map]. rewrite existsb_app, IH.
  rewrite flatl_cons. unfold every. rewrite forallb_app, (flatb_every f b Hb).
  destruct (bd b) as [e|]; cbn; [|reflexivity]. rewrite orb_false_r. now rewrite negb_andb.
Qed.

Lemma share_ok w a x v :
  Inv w -> Abs w a -> vat w x v -> x < length a -> good cat (body v) ->
  Done w (let (h, w) := share x v w in add (borrow h (body v)) w)
    (set_nth x (Live (flat (body v)) true) a ++ [Live (flat (body v)) true]) [] [] True True.
Proof using.
  intros I A Hx Lx G. destruct (share_inv managed w x v I Hx) as (h & E1 & I1 & V1 & T1).
  destruct (share x v w) as [h' w1]. cbn [fst snd] in *. subst h'.
  assert (vat w1 x (VEC (body v) (Some h))) as Hx1.
  { unfold vat. rewrite V1. apply nth_set_same. eapply vat_lt; eauto. }
  split; [|split; [|split]].
  - eapply add_shared; [exact I1|exact Hx1|reflexivity|reflexivity].
  - unfold MtvCowProofs.Abs, add. cbn [vecs]. rewrite V1. apply F2_snoc.
    + apply F2_set; [exact A|]. cbn. auto.
    + cbn. split; [exact G|]. auto.
  - intros _ p. rewrite <- (T1 p). unfold MtvCowProofs.T, add. cbn [gone vecs stores]. rewrite lsum_app.
    cbn [lsum cv borrow body freed store cnt]. lia.
  - intros Eb _ y u Hy. unfold vat, add in Hy. cbn [vecs] in Hy. rewrite V1 in Hy.
    apply nth_snoc_inv in Hy as [[_ Hy]|[_ Hy]].
    + injection Hy as ->. destruct (Eb x v Hx) as [Cv Bv]. split; [exact Cv|]. intros p. reflexivity.
    + apply nth_set_inv in Hy as [[_ Hy]|[_ Hy]]; [|exact (Eb y u Hy)].
      injection Hy as ->. exact (Eb x v Hx).
Qed.

Lemma step_clone w a x : Inv w -> Abs w a -> wlegal (WClone x) a -> Step (WClone x) w a.
Proof using.
  intros I A L. cbn in L. unfold Step. cbn [MtvCowSpec.wexec]. unfold clone_vec.
  destruct (Abs_live cat w a x A L) as (v & Hx & Ec & G & Lx).
  rewrite (fetch_ok None w x v I Hx). cbn [bind].
  pose proof (share_ok w a x v I A Hx Lx G) as D. destruct (share x v w) as [h w1].
  cbn [MtvCowSpec.aspec]. unfold MtvCowSpec.wgiven, MtvCowSpec.wtaken. cbn [MtvCowSpec.aspec MtvCowSpec.wcloned].
  rewrite Ec. cbn [fst snd app]. eexists. split; [reflexivity|]. eapply Done_weak; [exact D|tauto|tauto].
Qed.

Lemma copy_ok w a x v : Inv w -> Abs w a -> vat w x v -> x < length a -> good cat (body v) ->
  if every cat copyable (flat (body v))
  then exists w', copy_vec copyable x w = Ok (w', None) /\
    Done w w' (set_nth x (Live (flat (body v)) true) a ++ [Live (flat (body v)) true]) [] [] True True
  else copy_vec copyable x w = Ok (w, Some E_element_block).
Proof using.
  intros I A Hx Lx G. unfold copy_vec. rewrite (fetch_ok None w x v I Hx). cbn [bind].
  unfold blocks. rewrite (blocks_every copyable _ 0 (proj1 G)).
  change (flatl (bl (body v))) with (flat (body v)).
  destruct (every cat copyable (flat (body v))); cbn [negb]; [|reflexivity].
  pose proof (share_ok w a x v I A Hx Lx G) as D. destruct (share x v w) as [h w1].
  eexists. split; [reflexivity|exact D].
Qed.
Lemma step_copy w a x : Inv w -> Abs w a -> wlegal (WCopy x) a -> Step (WCopy x) w a.
Proof using.
  intros I A L. cbn in L. unfold Step. cbn [MtvCowSpec.wexec].
  destruct (Abs_live cat w a x A L) as (v & Hx & Ec & G & Lx).
  pose proof (copy_ok w a x v I A Hx Lx G) as C.
  cbn [MtvCowSpec.aspec]. unfold MtvCowSpec.wgiven, MtvCowSpec.wtaken. cbn [MtvCowSpec.aspec MtvCowSpec.wcloned].
  rewrite Ec. destruct (every cat copyable (flat (body v))).
  - destruct C as (w' & E & D). exists w'. cbn [fst snd app]. split; [exact E|]. eapply Done_weak; [exact D|tauto|tauto].
  - exists w. cbn [fst snd app]. split; [exact C|]. apply (Done_refl cat managed w a I A).
Qed.

Lemma move_ok w a x : Inv w -> Abs w a -> cell_at x a <> Dead ->
  exists w', move_vec x w = Ok (w', None) /\
    Done w w' (set_nth x Moved a ++ [cell_at x a]) [] [] True True.
Proof using.
  intros I A N. destruct (Abs_at cat w a x A N) as (v & Hx & R & Lx). unfold move_vec.
  rewrite (fetch_ok None w x v I Hx). cbn [bind]. eexists. split; [reflexivity|].
  pose proof (vat_lt _ _ _ Hx) as Lw. set (m := moved_out v).
  assert (Inv (add m w)) as J.
  { apply (add_own w m (wtag w) I); [reflexivity|lia|]. intros b []. }
  split; [|split; [|split]].
  - assert (add v (put x (Some m) w) = put (length (vecs w)) (Some v) (put x (Some m) (add m w))) as ->.
    { unfold add, put. cbn [vecs stores dead gone wtag]. f_equal. rewrite set_nth_snoc by lia.
      pose proof (set_nth_last (Some v) (Some m) (set_nth x (Some m) (vecs w))) as Es.
      rewrite set_nth_length in Es. now rewrite Es. }
    apply (swap_inv managed managed managed); [exact J| |].
    + unfold vat, add. cbn [vecs]. now apply nth_snoc_old.
    + unfold vat, add. cbn [vecs]. apply nth_snoc_new.
  - unfold MtvCowProofs.Abs, add, put. cbn [vecs]. apply F2_snoc; [|exact R]. apply F2_set; [exact A|].
    cbn. auto.
  - intros _ p. unfold MtvCowProofs.T, add, put. cbn [gone vecs stores]. rewrite lsum_app.
    pose proof (lsum_set (cv managed p) x (Some m) (Some v) (vecs w) Hx) as LS.
    assert (cv managed p (Some m) = 0) as C0 by reflexivity.
    cbn [lsum cnt]. lia.
  - intros Eb _ y u Hy. unfold vat, add, put in Hy. cbn [vecs] in Hy.
    apply nth_snoc_inv in Hy as [[_ Hy]|[_ Hy]].
    + injection Hy as ->. exact (Eb x v Hx).
    + apply nth_set_inv in Hy as [[_ Hy]|[_ Hy]]; [|exact (Eb y u Hy)].
      injection Hy as ->. split; [exact Logic.I|]. intros p. reflexivity.
Qed.
Lemma step_move w a x : Inv w -> Abs w a -> wlegal (WMove x) a -> Step (WMove x) w a.
Proof using.
  intros I A L. cbn in L. unfold Step. cbn [MtvCowSpec.wexec].
  destruct (move_ok w a x I A L) as (w' & E & D). exists w'. split; [exact E|].
  eapply Done_weak; [exact D|tauto|tauto].
Qed.

Lemma swap_ok w a x y : Inv w -> Abs w a -> cell_at x a <> Dead -> cell_at y a <> Dead ->
  exists w', swap_vec x y w = Ok (w', None) /\
    Done w w' (set_nth y (cell_at x a) (set_nth x (cell_at y a) a)) [] [] True True.
Proof using.
  intros I A Nx Ny. destruct (Abs_at cat w a x A Nx) as (v & Hx & Rx & Lx).
  destruct (Abs_at cat w a y A Ny) as (u & Hy & Ry & Ly). unfold swap_vec.
  rewrite (fetch_ok None w x v I Hx). cbn [bind]. rewrite (fetch_ok None w y u I Hy). cbn [bind].
  eexists. split; [reflexivity|]. split; [|split; [|split]].
  - now apply (swap_inv managed managed managed).
  - unfold MtvCowProofs.Abs, put. cbn [vecs]. apply F2_set; [|exact Rx]. now apply F2_set.
  - intros _ p. unfold MtvCowProofs.T, put. cbn [gone vecs stores].
    pose proof (lsum_set (cv managed p) x (Some u) (Some v) (vecs w) Hx) as L1.
    destruct (Nat.eq_dec x y) as [->|N].
    + pose proof (vat_fun _ _ _ _ Hx Hy) as ->. rewrite set_nth_twice. cbn [cnt]. lia.
    + assert (nth_error (set_nth x (Some u) (vecs w)) y = Some (Some u)) as Hy'
        by (rewrite nth_set_other by auto; exact Hy).
      pose proof (lsum_set (cv managed p) y (Some v) (Some u) _ Hy') as L2. cbn [cnt]. lia.
  - intros Eb _ z t Hz. unfold vat, put in Hz. cbn [vecs] in Hz.
    apply nth_set_inv in Hz as [[_ Hz]|[_ Hz]]; [injection Hz as ->; exact (Eb x v Hx)|].
    apply nth_set_inv in Hz as [[_ Hz]|[_ Hz]]; [injection Hz as ->; exact (Eb y u Hy)|exact (Eb z t Hz)].
Qed.
Lemma step_swap w a x y : Inv w -> Abs w a -> wlegal (WSwap x y) a -> Step (WSwap x y) w a.
Proof using.
  intros I A [L1 L2]. unfold Step. cbn [MtvCowSpec.wexec].
  destruct (swap_ok w a x y I A L1 L2) as (w' & E & D). exists w'. split; [exact E|].
  eapply Done_weak; [exact D|tauto|tauto].
Qed.

Lemma destroy_ok w a x : Inv w -> Abs w a -> cell_at x a <> Dead ->
  exists w', destroy_vec managed x w = Ok (w', None) /\ Done w w' (set_nth x Dead a) [] [] True True.
Proof using.
  intros I A N. destruct (Abs_at cat w a x A N) as (v & Hx & R & Lx). unfold destroy_vec.
  rewrite (fetch_ok None w x v I Hx). cbn [bind].
  assert (forall s d g t, Ebal w -> Ebal (WD (set_nth x None (vecs w)) s d g t)) as HE.
  { intros s d g t Eb z u Hz. unfold vat in Hz. cbn [vecs] in Hz.
    apply nth_set_inv in Hz as [[_ Hz]|[_ Hz]]; [discriminate|exact (Eb z u Hz)]. }
  destruct (store v) as [h|] eqn:Sv.
  - unfold put. cbn [vecs stores dead gone wtag].
    assert (InvB (Some h) (WD (set_nth x None (vecs w)) (stores w) (dead w) (gone w ++ freed (body v)) (wtag w))) as J.
    { eapply replace_none; [apply weaken, I|exact Hx|]. intros v0 [= <-]. right. eauto. }
    destruct (let_go_ok managed h _ (blocks (body v)) J) as (w' & E' & I' & V' & T' & A').
    { unfold sat. cbn [stores]. exact (ib_ref _ _ I x v h Hx Sv). }
    rewrite E'. cbn [bind]. exists w'. split; [reflexivity|]. split; [exact I'|]. split; [|split].
    + unfold MtvCowProofs.Abs. rewrite V'. cbn [vecs]. apply F2_set; [exact A|]. exact Logic.I.
    + intros _ p. rewrite A'. unfold MtvCowProofs.T. cbn [gone vecs stores]. rewrite cnt_app.
      pose proof (lsum_set (cv managed p) x None (Some v) (vecs w) Hx) as LS.
      assert (cv managed p (Some v) = cnt p (freed (body v))) as C0 by (unfold cv; rewrite Sv; lia).
      cbn [cnt cv] in *. lia.
    + intros Eb _ z u Hz. unfold vat in Hz. rewrite V' in Hz. exact (HE (stores w) (dead w) (gone w) (wtag w) Eb z u Hz).
  - destruct (body v) as [l c n g q r f] eqn:Eb0.
    destruct (delete_blocks_spec managed [] l [] c n g q r f) as (l' & _ & E).
    cbn [length app] in E. rewrite !app_nil_r in E.
    unfold clear, nblk. cbn [bl]. rewrite E. cbn [bind].
    set (s' := with_cs 0 (with_bl [] _)). eexists. split; [reflexivity|].
    rewrite (write_eq None w x v s' I Hx Sv). unfold put. cbn [vecs stores dead gone wtag].
    rewrite set_nth_twice.
    assert (Inv (WD (set_nth x None (vecs w)) (stores w) (dead w) (gone w ++ freed s') (wtag w))) as J.
    { eapply (replace_none None); [exact I|exact Hx|]. intros v0 [= <-]. auto. }
    split; [|split; [|split]].
    + apply (dead_ext None _ _ J). cbn [wtag]. intros b Hb. apply filter_In in Hb as [Hb _].
      change (In b (adr v)) in Hb. split; [now apply (ib_vec _ _ I x v Hx)|]. split.
      * intros z u Hz Hu. unfold vat in Hz. cbn [vecs] in Hz.
        apply nth_set_inv in Hz as [[_ Hz]|[Nz Hz]]; [discriminate|].
        exact (ib_own _ _ I x z v u Hx Hz Nz Sv b Hb Hu).
      * intros h es Hh Hu. refine (ib_lend _ _ I h es x v Hh Hx _ b Hu Hb). rewrite Sv. discriminate.
    + unfold MtvCowProofs.Abs. cbn [vecs]. apply F2_set; [exact A|]. exact Logic.I.
    + intros _ p. unfold MtvCowProofs.T. cbn [gone vecs stores].
      pose proof (lsum_set (cv managed p) x None (Some v) (vecs w) Hx) as LS.
      assert (cv managed p (Some v) = cnt p f + cnt p (mo managed l)) as C0
        by (unfold cv; rewrite Sv, owned_blocks, Eb0; reflexivity).
      unfold s'. cbn [with_cs with_bl freed]. rewrite !cnt_app. cbn [cnt cv] in *. lia.
    + intros Eb _. now apply HE.
Qed.
Lemma step_destroy w a x : Inv w -> Abs w a -> wlegal (WDestroy x) a -> Step (WDestroy x) w a.
Proof using.
  intros I A L. cbn in L. unfold Step. cbn [MtvCowSpec.wexec].
  destruct (destroy_ok w a x I A L) as (w' & E & D). exists w'. split; [exact E|].
  eapply Done_weak; [exact D|tauto|tauto].
Qed.

Lemma cell_at_snoc x (c : @cell V) a : x < length a -> cell_at x (a ++ [c]) = cell_at x a.
Proof using. intros H. unfold cell_at. now rewrite app_nth1. Qed.
Lemma cell_at_new (c : @cell V) a : cell_at (length a) (a ++ [c]) = c.
Proof using. unfold cell_at. rewrite app_nth2, Nat.sub_diag by lia. reflexivity. Qed.
Lemma cell_at_other x y (c : @cell V) a : x <> y -> cell_at x (set_nth y c a) = cell_at x a.
Proof using.
  intros H. unfold cell_at.
  destruct (nth_error a x) as [e|] eqn:E.
  - rewrite (nth_error_nth a x Dead E). apply nth_error_nth. now rewrite nth_set_other by auto.
  - rewrite !nth_overflow; auto; [|rewrite set_nth_length]; now apply nth_error_None.
Qed.
Lemma cell_at_set' x y (c : @cell V) a :
  c <> Dead -> cell_at x a <> Dead -> cell_at x (set_nth y c a) <> Dead.
Proof using.
  intros N H. destruct (Nat.eq_dec x y) as [->|E]; [|now rewrite cell_at_other].
  destruct (Nat.lt_ge_cases y (length a)) as [L|L]; [now rewrite cell_at_set|].
  now rewrite set_nth_over.
Qed.
Lemma live_lt x (a : list (@cell V)) : cell_at x a <> Dead -> x < length a.
Proof using.
  intros N. destruct (Nat.lt_ge_cases x (length a)) as [L|L]; [exact L|].
  exfalso. apply N. unfold cell_at. apply nth_overflow. lia.
Qed.

(** Swap with the temporary and destroy it. *)
Lemma replace_ok w b x c : Inv w -> Abs w (b ++ [c]) -> cell_at x b <> Dead -> c <> Dead ->
  exists w1 w2, swap_vec x (length (vecs w) - 1) w = Ok (w1, None) /\
    destroy_vec managed (length (vecs w) - 1) w1 = Ok (w2, None) /\
    Done w w2 (set_nth x c b ++ [Dead]) [] [] True True.
Proof using copyable cloneable.
  intros I A N Nc. pose proof (live_lt x b N) as Lx.
  assert (length (vecs w) - 1 = length b) as ->.
  { pose proof (Abs_len cat w _ A) as H. rewrite app_length in H. cbn in H. lia. }
  destruct (swap_ok w (b ++ [c]) x (length b) I A) as (w1 & E1 & D1).
  { now rewrite cell_at_snoc. } { now rewrite cell_at_new. }
  rewrite cell_at_snoc, cell_at_new, set_nth_snoc in D1 by auto.
  pose proof (set_nth_last (cell_at x b) c (set_nth x c b)) as Es. rewrite set_nth_length in Es.
  rewrite Es in D1. clear Es. pose proof D1 as (I1 & A1 & _).
  destruct (destroy_ok w1 (set_nth x c b ++ [cell_at x b]) (length b) I1 A1) as (w2 & E2 & D2).
  { rewrite <- (set_nth_length x c b). now rewrite cell_at_new. }
  pose proof (set_nth_last Dead (cell_at x b) (set_nth x c b)) as Es. rewrite set_nth_length in Es.
  rewrite Es in D2. exists w1, w2. split; [exact E1|]. split; [exact E2|].
  eapply Done_trans; [exact D1|exact D2|tauto|tauto|reflexivity|reflexivity].
Qed.

Lemma step_assign w a x y : Inv w -> Abs w a -> wlegal (WAssign x y) a -> Step (WAssign x y) w a.
Proof using.
  intros I A [L1 L2]. unfold Step. cbn [MtvCowSpec.wexec].
  destruct (Abs_live cat w a y A L2) as (v & Hy & Ec & G & Ly).
  destruct (Abs_at cat w a x A L1) as (u & Hx & _ & Lx).
  unfold assign_vec. rewrite (fetch_ok None w x u I Hx). cbn [bind].
  pose proof (copy_ok w a y v I A Hy Ly G) as C.
  cbn [MtvCowSpec.aspec]. unfold MtvCowSpec.wgiven, MtvCowSpec.wtaken. cbn [MtvCowSpec.aspec MtvCowSpec.wcloned].
  rewrite Ec. destruct (every cat copyable (flat (body v))).
  - destruct C as (w1 & E1 & D1). rewrite E1. cbn [bind]. pose proof D1 as (I1 & A1 & _).
    destruct (replace_ok w1 _ x _ I1 A1) as (w2 & w3 & E2 & E3 & D2).
    { apply cell_at_set'; [discriminate|exact L1]. } { discriminate. }
    rewrite E2. cbn [bind]. exists w3. cbn [fst snd app]. split; [exact E3|].
    eapply Done_trans; [exact D1|exact D2|tauto|tauto|reflexivity|reflexivity].
  - rewrite C. cbn [bind]. exists w. cbn [fst snd app]. split; [reflexivity|]. apply (Done_refl cat managed w a I A).
Qed.

Lemma step_move_assign w a x y : Inv w -> Abs w a -> wlegal (WMoveAssign x y) a -> Step (WMoveAssign x y) w a.
Proof using.
  intros I A [L1 L2]. unfold Step. cbn [MtvCowSpec.wexec].
  destruct (Abs_at cat w a x A L1) as (u & Hx & _ & Lx).
  unfold move_assign_vec. rewrite (fetch_ok None w x u I Hx). cbn [bind].
  destruct (move_ok w a y I A L2) as (w1 & E1 & D1). rewrite E1. cbn [bind]. pose proof D1 as (I1 & A1 & _).
  destruct (replace_ok w1 _ x _ I1 A1) as (w2 & w3 & E2 & E3 & D2).
  { apply cell_at_set'; [discriminate|exact L1]. } { exact L2. }
  rewrite E2. cbn [bind]. exists w3. split; [exact E3|].
  eapply Done_trans; [exact D1|exact D2|tauto|tauto|reflexivity|reflexivity].
Qed.

Lemma step_detach w a x : Inv w -> Abs w a -> wlegal (WDetach x) a -> Step (WDetach x) w a.
Proof using Hclone.
  intros I A L. cbn in L. unfold Step. cbn [MtvCowSpec.wexec].
  destruct (Abs_live cat w a x A L) as (v & Hx & Ec & G & Lx).
  cbn [MtvCowSpec.aspec]. unfold MtvCowSpec.wgiven, MtvCowSpec.wtaken. cbn [MtvCowSpec.aspec MtvCowSpec.wcloned].
  rewrite Ec. unfold flag. destruct (store v) as [h|] eqn:Sv; cbn [andb unshared].
  - destruct (detach_ok cat managed clone cloneable Hclone w a x v h I A Hx Lx Sv G) as [D1 D2].
    destruct (every cat cloneable (flat (body v))); cbn [negb fst snd].
    + destruct (D2 eq_refl) as (w1 & v1 & E1 & Hx1 & Sv1 & G1 & F1 & Dn). exists w1. split; [exact E1|].
      rewrite cell_at_set by auto. eapply Done_weak; [exact Dn|tauto|tauto].
    + exists w. split; [exact (D1 eq_refl)|]. rewrite Ec. unfold flag. rewrite Sv. apply (Done_refl cat managed w a I A).
  - exists w. cbn [fst snd]. unfold detach. rewrite (fetch_ok None w x v I Hx). cbn [bind]. rewrite Sv.
    split; [reflexivity|]. rewrite set_cell_id; [| |discriminate].
    + apply (Done_refl cat managed w a I A).
    + rewrite Ec. unfold flag. now rewrite Sv.
Qed.

Lemma add_ok w a (s : st) : Inv w -> Abs w a -> good cat s -> canon s ->
  (forall i, In i (addrs (blocks s)) -> fst i = wtag w) -> freed s = [] ->
  (forall p, cnt p (acq s) = cnt p (rel s) + cnt p (refs (bl s))) ->
  Done w (tick (add (VEC s None) w)) (a ++ [Live (flat s) false]) (objects cat managed (flat s)) [] True True.
Proof using.
  intros I A G C Hi Hf He. split; [|split; [|split]].
  - apply (add_own w (VEC s None) (S (wtag w)) I); [reflexivity|lia|].
    intros b Hb. rewrite (Hi b Hb). lia.
  - unfold MtvCowProofs.Abs, add, tick. cbn [vecs]. apply F2_snoc; [exact A|]. cbn. auto.
  - intros _ p. unfold MtvCowProofs.T, add, tick. cbn [gone vecs stores]. rewrite lsum_app.
    cbn [lsum cv body store]. rewrite Hf, (owned_flat cat managed s G). cbn [cnt]. lia.
  - intros Eb _ y u Hy. unfold vat, add, tick in Hy. cbn [vecs] in Hy.
    apply nth_snoc_inv in Hy as [[_ Hy]|[_ Hy]]; [|exact (Eb y u Hy)].
    injection Hy as ->. split; [exact C|exact He].
Qed.

Lemma step_make w a n : Inv w -> Abs w a -> wlegal (WMake n) a -> Step (WMake n) w a.
Proof using.
  intros I A _. unfold Step. cbn [MtvCowSpec.wexec]. unfold make_vec. eexists. split; [reflexivity|].
  assert (flat (mk_size (wtag w) n : st) = repeat None n) as Ef.
  { unfold mk_size. destruct n; [reflexivity|]. cbn [Nat.eqb]. unfold flat, flatl. cbn [bl flat_map flatb bd bs].
    now rewrite app_nil_r. }
  pose proof (add_ok w a (mk_size (wtag w) n) I A (good_init cat _ _) (canon_init _ _)) as D.
  rewrite Ef in D. cbn [MtvCowSpec.aspec fst snd MtvCowSpec.wcloned].
  assert (objects cat managed (repeat None n) = []) as Eo by (clear; induction n; cbn; auto).
  rewrite Eo in D. eapply Done_weak; [apply D| |]; try tauto.
  - unfold mk_size. destruct (n =? 0); intros i [].
  - unfold mk_size. now destruct (n =? 0).
  - unfold mk_size. now destruct (n =? 0).
Qed.

Lemma step_range w a n vs : Inv w -> Abs w a -> wlegal (WRange n vs) a -> Step (WRange n vs) w a.
Proof using.
  intros I A L. cbn in L. unfold Step. cbn [MtvCowSpec.wexec]. unfold make_range.
  unfold MtvCowSpec.wgiven, MtvCowSpec.wtaken. cbn [MtvCowSpec.aspec MtvCowSpec.wcloned].
  pose proof (good_range cat (wtag w) n vs) as Hg. unfold mk_range in *.
  destruct (Nat.eqb_spec n 0) as [->|N0]; cbn [orb].
  - destruct (Hg _ L eq_refl) as [G C]. eexists. split; [reflexivity|]. cbn [firstn map fst snd app].
    eapply Done_weak; [apply (add_ok w a (mk_empty (wtag w)) I A G C)| |]; try tauto; try reflexivity. intros i [].
  - destruct (Nat.eqb_spec n (length vs)) as [->|N1]; cbn [negb] in *.
    + destruct vs as [|v0 vs]; [cbn in N0; congruence|]. destruct (Hg _ L eq_refl) as [G C].
      eexists. split; [reflexivity|]. cbn [fst snd]. rewrite firstn_all, app_nil_r.
      assert (flat (ST [BK 0 (length (v0 :: vs)) (Some (EB (wtag w, 0) (cat v0) (v0 :: vs)))] (length (v0 :: vs)) 1 (wtag w)
                [(wtag w, 0, cat v0)] [] []) = map Some (v0 :: vs)) as Ef.
      { unfold flat, flatl. cbn [bl flat_map flatb bd ev]. now rewrite app_nil_r. }
      rewrite <- Ef. eapply Done_weak; [apply (add_ok w a _ I A G C)| |]; try tauto; try reflexivity.
      intros i [<-|[]]. reflexivity.
    + exists w. cbn [fst snd app]. split; [reflexivity|]. apply (Done_refl cat managed w a I A).
Qed.

(** ** Every statement *)
Theorem step_all_ok o w a : Inv w -> Abs w a -> wlegal o a -> Step o w a.
Proof using Hclone.
  destruct o; intros I A L.
  - now apply step_make.
  - now apply step_range.
  - now apply step_clone.
  - now apply step_copy.
  - now apply step_move.
  - now apply step_destroy.
  - now apply step_swap.
  - now apply step_assign.
  - now apply step_move_assign.
  - now apply step_detach.
  - now apply step_op.
Qed.

Notation wgiven_all := (wgiven_all cat managed clone cloneable copyable).
Notation wtaken_all := (wtaken_all cat managed clone cloneable copyable).
Notation wclean := (wclean cat clone cloneable copyable).
Notation wlegal_all := (wlegal_all cat managed clone cloneable copyable).
Notation arun := (arun cat clone cloneable copyable).
Notation wrun := (wrun cat managed clone cloneable copyable).

Theorem run_all_ok os : forall w a, Inv w -> Abs w a -> wlegal_all os a ->
  exists w', wrun os w = Ok (w', snd (arun os a)) /\
    Done w w' (fst (arun os a)) (wgiven_all os a) (wtaken_all os a)
      (wclean wleaky os a) (wclean wexempt os a).
Proof using Hclone.
  induction os as [|o os IH]; intros w a I A L.
  - exists w. split; [reflexivity|]. apply (Done_refl cat managed w a I A).
  - destruct L as [L1 L2]. destruct (step_all_ok o w a I A L1) as (w1 & E1 & D1).
    cbn [MtvCowSpec.wrun MtvCowSpec.arun MtvCowSpec.wgiven_all MtvCowSpec.wtaken_all MtvCowSpec.wclean].
    rewrite E1. cbn [bind]. destruct (aspec o a) as [a1 e1]. cbn [fst snd] in *.
    pose proof D1 as (I1 & A1 & _). destruct (IH w1 a1 I1 A1 L2) as (w2 & E2 & D2). rewrite E2. cbn [bind].
    destruct (arun os a1) as [a2 es]. cbn [fst snd] in *. exists w2. split; [reflexivity|].
    eapply Done_trans; [exact D1|exact D2|tauto|tauto| |reflexivity]. apply app_assoc.
Qed.

Lemma Inv_nothing : Inv (nothing : world).
Proof using.
  constructor; unfold vat, sat; cbn [nothing vecs stores dead].
  - intros [|x]; discriminate.
  - intros [|x]; discriminate.
  - intros a [].
  - intros [|x]; discriminate.
  - intros [|h]; discriminate.
  - intros [|h]; discriminate.
  - intros [|h]; discriminate.
  - intros [|h]; discriminate.
Qed.
End P3.
