(** Proofs for copy-on-write: every statement does what its specification says. *)
From Coq Require Import List ZArith Lia Bool Permutation.
From Verif Require Import Base MtvModel MtvModel2 MtvSpec MtvProofs MtvTac MtvWrap MtvBridge MtvBridge2
  MtvIds MtvCow MtvCowSpec MtvCowProofs.
Import ListNotations.
Open Scope nat_scope.

Section P2.
Context {V : Type}.
Variable cat : V -> nat.
Variable managed : nat -> bool.
Variable clone : V -> V.
Variable cloneable copyable : nat -> bool.
Hypothesis Hclone : forall v, cat (clone v) = cat v.
Notation eblk := (@eblk V).
Notation blk := (@blk V).
Notation st := (@st V).
Notation vec := (@vec V).
Notation world := (@world V).
Notation Inv := (@Inv V).
Notation Abs := (Abs cat).
Notation T := (T managed).
Notation Done := (Done cat managed).

Lemma exec_addrs o (s s' : st) t :
  exec cat managed o (retag t s) = Ok s' ->
  forall a, In a (addrs (blocks s')) -> In a (addrs (blocks s)) \/ fst a = t.
Proof using.
  intros E a Ha.
  assert (K (fun a => In a (addrs (blocks s)) \/ fst a = t) t s') as [HK _].
  { eapply exec_K; [| |exact E]; [intros n; right; reflexivity|]. split; [|reflexivity].
    cbn [retag bl]. apply Forall_forall. intros b Hb. unfold Kb. destruct (bd b) as [e|] eqn:Eb; [|exact I].
    left. unfold addrs, blocks. apply in_map. apply in_flat_map. exists b. split; [exact Hb|]. rewrite Eb. left. reflexivity. }
  unfold addrs, blocks in Ha. apply in_map_iff in Ha as (e & <- & He). apply in_flat_map in He as (b & Hb & He).
  rewrite Forall_forall in HK. specialize (HK b Hb). unfold Kb in HK.
  destruct (bd b) as [e'|]; [|contradiction]. destruct He as [->|[]]. exact HK.
Qed.

Lemma Done_refl w a : Inv w -> Abs w a -> forall lk ev, Done w w a [] [] lk ev.
Proof using. intros I A lk ev. split; [exact I|]. split; [exact A|]. split; [intros _ p; reflexivity|auto]. Qed.

Lemma Ebal_set (w w' : world) x v' : (forall y u, vat w' y u -> (y = x /\ u = v') \/ vat w y u) ->
  Ebal w -> ebal v' -> Ebal w'.
Proof using. intros H E1 E2 y u Hy. destruct (H y u Hy) as [[_ ->]|Hy']; eauto. Qed.

Lemma vat_set (w : world) x v' y u st' d g t :
  vat (WD (set_nth x (Some v') (vecs w)) st' d g t) y u -> (y = x /\ u = v') \/ (y <> x /\ vat w y u).
Proof using.
  unfold vat. cbn [vecs]. intros H. apply nth_set_inv in H as [[E1 E2]|[E1 E2]]; [left; split; congruence|right; split; auto].
Qed.

(** ** A call on a container that is not shared *)
Lemma plain_ok w a x v o :
  Inv w -> Abs w a -> vat w x v -> x < length a -> store v = None -> good cat (body v) ->
  legal cat managed o (flat (body v)) ->
  match spec o (flat (body v)) with
  | Some l' =>
      exists w', plain_op cat managed x o w = Ok (w', None) /\
        Done w w' (set_nth x (Live l' false) a) (given cat managed o) (taken_back cat managed o (flat (body v)))
          (~ leaky cat managed (flat (body v)) o) (~ event_exempt cat (flat (body v)) o)
  | None => plain_op cat managed x o w = Ok (w, Some E_out_of_range)
  end.
Proof using.
  intros I A Hx Lx Sv G L. set (s := retag (wtag w) (body v)).
  assert (good cat s) as Gs by exact G.
  pose proof (exec_spec cat managed o s Gs L) as He.
  change (flat s) with (flat (body v)) in He. unfold plain_op. rewrite (fetch_ok None w x v I Hx). cbn [bind].
  fold s. destruct (spec o (flat (body v))) as [l'|].
  - apply wp_ok in He as (s' & E & G' & F' & C' & O' & Ev'). rewrite E. eexists. split; [reflexivity|].
    change (flat s) with (flat (body v)) in *.
    rewrite (write_eq None (tick w) x v s' (tick_ok _ _ I) Hx Sv).
    unfold Done. split; [|split; [|split]].
    + rewrite <- (write_eq None (tick w) x v s' (tick_ok _ _ I) Hx Sv).
      apply write_inv; auto. intros b Hb. eapply exec_addrs; eauto.
    + unfold MtvCowProofs.Abs. cbn [vecs tick]. apply F2_set; [exact A|]. cbn. split; [exact G'|]. split; [exact F'|reflexivity].
    + intros Hl p. specialize (O' Hl p). unfold MtvCowProofs.T. cbn [gone vecs stores tick].
      pose proof (lsum_set (cv managed p) x (Some (VEC s' None)) (Some v) (vecs w) Hx) as LS.
      unfold cv at 2 4 in LS. rewrite Sv in LS. cbn [store body] in LS.
      rewrite (owned_flat cat managed _ G), (owned_flat cat managed _ G'), F' in LS.
      change (freed s) with (freed (body v)) in O'. lia.
    + intros Eb He. apply (Ebal_set w _ x (VEC s' None)).
      * intros y u Hy. apply vat_set in Hy as [?|[_ ?]]; auto.
      * exact Eb.
      * destruct (Eb x v Hx) as [Cv Bv]. split; cbn [body].
        { apply C'; [exact Cv|]. intros Hu. apply He. now apply exempt_unmerged. }
        { intros p. specialize (Ev' Cv He p). specialize (Bv p).
          change (acq s) with (acq (body v)) in Ev'. change (rel s) with (rel (body v)) in Ev'.
          change (bl s) with (bl (body v)) in Ev'. lia. }
  - rewrite He. reflexivity.
Qed.

(** clear on a moved-from container. *)
Lemma moved_clear w a x v :
  Inv w -> Abs w a -> vat w x v -> x < length a -> bl (body v) = [] -> store v = None ->
  exists w', plain_op cat managed x OClear w = Ok (w', None) /\
    Done w w' (set_nth x (Live [] false) a) [] [] True True.
Proof using.
  intros I A Hx Lx Bv Sv. unfold plain_op. rewrite (fetch_ok None w x v I Hx). cbn [bind].
  cbn [exec]. unfold clear, nblk, retag. cbn [bl]. rewrite Bv. cbn [length delete_element_blocks bind].
  eexists. split; [reflexivity|]. rewrite (write_eq None (tick w) x v _ (tick_ok _ _ I) Hx Sv).
  set (s' := with_cs 0 (with_bl [] _)).
  split; [|split; [|split]].
  - rewrite <- (write_eq None (tick w) x v s' (tick_ok _ _ I) Hx Sv). apply write_inv; auto. intros b [].
  - unfold MtvCowProofs.Abs. cbn [vecs tick]. apply F2_set; [exact A|]. cbn. repeat split; auto.
  - intros _ p. unfold MtvCowProofs.T. cbn [gone vecs stores tick].
    pose proof (lsum_set (cv managed p) x (Some (VEC s' None)) (Some v) (vecs w) Hx) as LS.
    unfold cv at 2 4 in LS. rewrite Sv in LS. cbn [store body] in LS.
    rewrite owned_blocks, Bv in LS. cbn in LS. cbn. lia.
  - intros Eb _. apply (Ebal_set w _ x (VEC s' None)).
    + intros y u Hy. apply vat_set in Hy as [?|[_ ?]]; auto.
    + exact Eb.
    + destruct (Eb x v Hx) as [Cv Bev]. split; cbn [body]; [exact Logic.I|].
      intros p. specialize (Bev p). rewrite Bv in Bev. cbn in *. exact Bev.
Qed.

(** ** Detaching *)
Lemma clone_bl_ok g : forall l k p, wfl cat p l ->
  (every cat cloneable (flatl l) = true ->
   exists l', copy_bl clone cloneable g k l = Ok l' /\
     forall b e, In b l' -> bd b = Some e -> fst (eid e) = g) /\
  (every cat cloneable (flatl l) = false -> copy_bl clone cloneable g k l = Throw E_element_block).
Proof using.
  induction l as [|b l IH]; intros k p Hw; cbn [copy_bl].
  - split; [|discriminate]. intros _. exists []. split; [reflexivity|]. intros b e [].
  - destruct Hw as (Hp & [Hz Hb] & Hl). specialize (IH (S k) _ Hl). destruct IH as [IH1 IH2].
    rewrite flatl_cons. unfold every in *. rewrite forallb_app.
    destruct b as [q z [e|]]; cbn [bd bp bs] in *.
    + destruct Hb as [Hn Hc].
      assert (forallb (fun x => match x with Some v => cloneable (cat v) | None => true end)
                (flatb (BK q z (Some e))) = cloneable (ecat e)) as Ef.
      { unfold flatb. cbn [bd]. destruct (ev e) as [|v0 vs] eqn:Ev; [cbn in Hn; lia|].
        assert (forall v, In v (v0 :: vs) -> cat v = ecat e) as Hall.
        { intros v Hv. unfold all_cat in Hc. rewrite forallb_forall in Hc. apply Nat.eqb_eq. auto. }
        destruct (cloneable (ecat e)) eqn:Ece.
        - apply forallb_forall. intros x Hx. apply in_map_iff in Hx as (v & <- & Hv). now rewrite (Hall v Hv).
        - cbn. rewrite (Hall v0 (or_introl eq_refl)), Ece. reflexivity. }
      rewrite Ef. unfold copy_data. destruct (cloneable (ecat e)); cbn [andb bind].
      * split.
        { intros H. destruct (IH1 H) as (l' & -> & H'). cbn [bind]. eexists. split; [reflexivity|].
          intros b0 e0 [<-|Hin]; [cbn; intros [= <-]; reflexivity|eauto]. }
        { intros H. rewrite (IH2 H). reflexivity. }
      * split; [discriminate|reflexivity].
    + assert (forallb (fun x => match x with Some v => cloneable (cat v) | None => true end)
                (flatb (BK q z None)) = true) as Ef.
      { unfold flatb. cbn [bd bs]. clear. induction z; cbn; auto. }
      rewrite Ef. cbn [andb bind]. split.
      { intros H. destruct (IH1 H) as (l' & -> & H'). cbn [bind]. eexists. split; [reflexivity|].
        intros b0 e0 [<-|Hin]; [discriminate|eauto]. }
      { intros H. rewrite (IH2 H). reflexivity. }
Qed.

Lemma held_refs (l : list blk) : held l = refs l.
Proof using. reflexivity. Qed.

Lemma detach_ok w a x v h :
  Inv w -> Abs w a -> vat w x v -> x < length a -> store v = Some h -> good cat (body v) ->
  (every cat cloneable (flat (body v)) = false -> detach managed clone cloneable x w = Ok (w, Some E_element_block)) /\
  (every cat cloneable (flat (body v)) = true ->
   exists w' v', detach managed clone cloneable x w = Ok (w', None) /\ vat w' x v' /\ store v' = None /\
     good cat (body v') /\ flat (body v') = map (option_map clone) (flat (body v)) /\
     Done w w' (set_nth x (Live (map (option_map clone) (flat (body v))) false) a)
       (objects cat managed (map (option_map clone) (flat (body v)))) [] True True).
Proof using Hclone.
  intros I A Hx Lx Sv G. unfold detach. rewrite (fetch_ok None w x v I Hx). cbn [bind]. rewrite Sv.
  pose proof G as (Hw & Hcs & He).
  destruct (clone_bl_ok (wtag w) (bl (body v)) 0 0 Hw) as [C1 C2].
  split.
  - intros H. change (flat (body v)) with (flatl (bl (body v))) in H. now rewrite (C2 H).
  - intros H. change (flat (body v)) with (flatl (bl (body v))) in H. destruct (C1 H) as (l' & E & Hid).
    rewrite E. destruct (copy_bl_spec cat clone cloneable Hclone _ _ _ _ _ E Hw) as (W1 & W2 & W3 & W4 & _).
    set (s' := ST l' _ _ _ _ _ _). set (v' := VEC s' None).
    assert (good cat s') as Gs.
    { split; [exact W1|]. unfold s'; cbn [cs bl]. split; [rewrite W3; exact Hcs|]. rewrite W2. exact He. }
    assert (flat s' = map (option_map clone) (flat (body v))) as Fs by exact W4.
    assert (InvB (Some h) (WD (set_nth x (Some v') (vecs w)) (stores w) (dead w) (gone w) (S (wtag w)))) as J.
    { eapply replace_own; [apply weaken, I|exact Hx|lia|reflexivity| |].
      - intros b Hb. unfold adr, addrs, blocks in Hb. cbn [body bl] in Hb.
        apply in_map_iff in Hb as (e & <- & Hb). apply in_flat_map in Hb as (b & Hb & Hbe).
        destruct (bd b) as [e'|] eqn:Eb; [|contradiction]. destruct Hbe as [->|[]].
        rewrite (Hid b e Hb Eb). split; [lia|]. split; [|left; lia].
        intros Hd. pose proof (ib_dead _ _ I _ Hd) as Hd'. rewrite (Hid b e Hb Eb) in Hd'. lia.
      - intros v0 [= <-]. right. eauto. }
    destruct (let_go_ok managed h _ (blocks (body v)) J) as (w' & E' & I' & V' & T' & A').
    { unfold sat. cbn [stores]. exact (ib_ref _ _ I x v h Hx Sv). }
    rewrite E'. cbn [bind]. exists w', v'. split; [reflexivity|].
    assert (vat w' x v') as Hx'.
    { unfold vat. rewrite V'. cbn [vecs]. apply nth_set_same. eapply vat_lt; eauto. }
    split; [exact Hx'|]. split; [reflexivity|]. split; [exact Gs|]. split; [exact Fs|].
    split; [exact I'|]. split; [|split].
    + unfold MtvCowProofs.Abs. rewrite V'. cbn [vecs]. apply F2_set; [exact A|]. cbn. auto.
    + intros _ p. rewrite A'. unfold MtvCowProofs.T. cbn [gone vecs stores].
      pose proof (lsum_set (cv managed p) x (Some v') (Some v) (vecs w) Hx) as LS.
      assert (cv managed p (Some v) = cnt p (freed (body v))) as C0 by (unfold cv; rewrite Sv; lia).
      assert (cv managed p (Some v') = cnt p (freed (body v)) +
                cnt p (objects cat managed (map (option_map clone) (flat (body v))))) as C3.
      { rewrite <- Fs, <- (owned_flat cat managed s' Gs). reflexivity. }
      cbn [cnt]. lia.
    + intros Eb _. apply (Ebal_set w _ x v').
      * intros y u Hy. unfold vat in Hy. rewrite V' in Hy. cbn [vecs] in Hy.
        apply nth_set_inv in Hy as [[E1 E2]|[E1 E2]]; [left; split; congruence|right; exact E2].
      * exact Eb.
      * destruct (Eb x v Hx) as [Cv Bv]. split.
        { unfold canon, v', s' in *. cbn [body bl]. now rewrite W2. }
        { intros p. specialize (Bv p). unfold v', s'. cbn [body acq rel bl]. rewrite !cnt_app, (held_refs l'), (held_refs (bl (body v))). lia. }
Qed.
End P2.
