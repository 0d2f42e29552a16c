(** Removal of one value from a linked tree. *)

From Coq Require Import List ZArith Lia Bool Permutation.
From Verif Require Import Base RtModel RtBox RtPerm RtTree RtShape RtSplit RtInsert.
Import ListNotations.
Open Scope nat_scope.

(** *** Boxes *)
Lemma inside_antisym a b : inside a b -> inside b a -> a = b.
Proof.
  intros H. induction H as [|[s e] [s1 e1] a b Hij H IH]; intros Hb; [reflexivity|].
  inversion Hb; subst. cbn [fst snd] in *. rewrite IH by auto. f_equal. f_equal; lia.
Qed.

Lemma hull_remove D l1 x l2 : Forall (fun b : box => length b = D) (l1 ++ x :: l2) -> l1 ++ l2 <> [] ->
  hull D (l1 ++ x :: l2) = enl (hull D (l1 ++ l2)) x.
Proof.
  intros F N. destruct l1 as [|b0 l1]; cbn [app hull] in *.
  - destruct l2 as [|y l2]; [congruence|]. cbn [fold_left hull]. rewrite enl_comm; [apply fold_enl_in|].
    apply Forall_cons_iff in F. destruct F as [F1 F2]. apply Forall_cons_iff in F2. destruct F2. congruence.
  - rewrite !fold_left_app. cbn [fold_left]. apply fold_enl_in.
Qed.

Lemma not_boundary a x : at_boundary (enl a x) x = false -> length a = length x -> enl a x = a.
Proof.
  revert x. induction a as [|[s e] a IH]; intros [|[s' e'] x] H L; cbn [enl at_boundary length] in *; try discriminate; auto.
  match type of H with (if ?z then _ else _) = _ => destruct z eqn:E end; [discriminate|].
  rewrite IH by auto. apply orb_false_iff in E. destruct E as [E1 E2].
  f_equal. revert E1 E2.
  repeat match goal with |- context [if ?z then _ else _] => destruct z end; intros E1 E2;
    rewrite ?Z.eqb_refl in *; try discriminate; reflexivity.
Qed.

Lemma boundary_self b : at_boundary b b = false -> b = [].
Proof. destruct b as [|[s e] b]; cbn [at_boundary]; [auto|]. now rewrite Z.eqb_refl. Qed.

Lemma fit_removed D tg b l1 x l2 mid : length x = D ->
  Forall (fun b : box => length b = D) (l1 ++ mid ++ l2) ->
  fit D tg b (l1 ++ x :: l2) -> (mid = [] \/ exists x', mid = [x'] /\ inside x' x) ->
  at_boundary b x = false -> fit D tg b (l1 ++ mid ++ l2).
Proof.
  intros Lx Fl [Lb F] Hm Hb. split; [exact Lb|].
  assert (Fl2 : Forall (fun b : box => length b = D) (l1 ++ x :: l2)).
  { apply Forall_app in Fl. destruct Fl as [F1 F2]. apply Forall_app in F2. destruct F2 as [_ F2].
    apply Forall_app. split; auto. }
  assert (Fi : Forall (fun y => inside y b) (l1 ++ mid ++ l2)).
  { pose proof (fit_inside D tg b _ Fl2 (conj Lb F)) as G. apply Forall_app in G. destruct G as [G1 G2].
    apply Forall_cons_iff in G2. destruct G2 as [G2 G3]. apply Forall_app. split; [auto|]. apply Forall_app. split; [|auto].
    destruct Hm as [->|(x' & -> & Hx)]; [constructor|]. constructor; [|constructor]. eapply inside_trans; eauto. }
  destruct tg; [|exact Fi].
  destruct (l1 ++ l2) as [|y l] eqn:El.
  - apply app_eq_nil in El. destruct El as [-> ->]. cbn [app hull fold_left] in F. subst b.
    apply boundary_self in Hb. subst x. cbn [length] in Lx. subst D.
    match goal with |- [] = ?z => assert (E : length z = 0) by (apply hull_length; auto); destruct z; [reflexivity|discriminate] end.
  - apply inside_antisym.
    + assert (Fr : b = enl (hull D (l1 ++ l2)) x) by (rewrite F; apply hull_remove; [exact Fl2|congruence]).
      rewrite Fr in Hb. apply not_boundary in Hb.
      2:{ rewrite Lx. apply hull_length. apply Forall_app in Fl. destruct Fl as [F1 F2]. apply Forall_app in F2.
          apply Forall_app. tauto. }
      rewrite Fr, Hb.
      apply hull_least; [congruence|]. pose proof (hull_inside D _ Fl) as G.
      apply Forall_app in G. destruct G as [G1 G2]. apply Forall_app in G2. apply Forall_app. tauto.
    + apply hull_least; [|exact Fi]. intros E. apply app_eq_nil in E. destruct E as [-> E].
      apply app_eq_nil in E. destruct E as [_ ->]. discriminate.
Qed.

Section E.
Context {V : Type}.
Variable C : cfg.
Hypothesis T : traits_ok C.
Variable tg : bool.
Variable rl : nat.
Hypothesis rl1 : 1 <= rl.
Hypothesis rl2 : rl <= 2.
Variable kl : nat.
Hypothesis kl1 : 1 <= kl.
Hypothesis klm : kl <= mn C.
Implicit Types (n k t : nd V) (ks l : list (nd V)) (c : list (fr V)).

Notation lenD := (fun b : box => length b = dims C).
Notation shape := (shape C tg kl).
Notation cshape := (cshape C tg rl kl).
Notation tshape := (tshape C tg rl kl).
Notation kid h := (shape h kl (mx C)).

(** *** The node at an address *)
Lemma get_ctx a : forall t n, get a t = Some n -> exists c, t = plug c n /\ na n = a.
Proof.
  intros t. induction t as [a' p b v|a' p lf b cnt ok ks IH] using nd_ind2; intros n H.
  - cbn [get na] in H. destruct (Nat.eqb_spec a' a); [|discriminate]. injection H as <-. exists []. auto.
  - rewrite get_dir in H. destruct (Nat.eqb_spec a' a) as [E|E].
    + injection H as <-. exists []. auto.
    + assert (G : exists l1 k l2, ks = l1 ++ k :: l2 /\ get a k = Some n).
      { clear - H. induction ks as [|k ks IHk]; [discriminate|].
        cbn [fold_right] in H. match type of H with context [get a k] => destruct (get a k) eqn:Ek end.
        - exists [], k, ks. split; [reflexivity|]. congruence.
        - destruct (IHk H) as (l1 & k' & l2 & -> & G). exists (k :: l1), k', l2. auto. }
      destruct G as (l1 & k & l2 & -> & G). apply Forall_app in IH. destruct IH as [_ IH].
      apply Forall_cons_iff in IH. destruct IH as [IH _]. destruct (IH n G) as (c & -> & Ea).
      exists (c ++ [FR a' p lf b cnt ok l1 l2]). rewrite plug_app. split; [reflexivity|exact Ea].
Qed.

(** The heights along a context *)
Lemma shape_ctx c : forall H lo hi n, shape H lo hi (plug c n) -> exists h lo' hi', H = h + length c /\ shape h lo' hi' n.
Proof.
  induction c as [|f c IH]; intros H lo hi n Hs; cbn [plug length] in *.
  - exists H, lo, hi. split; [lia|exact Hs].
  - destruct (IH _ _ _ _ Hs) as (h & lo' & hi' & -> & Hn). destruct h as [|h]; [contradiction|].
    unfold plug1 in Hn. cbn [RtShape.shape] in Hn. destruct Hn as (_ & _ & _ & _ & K). apply Forall_app in K.
    destruct K as [_ K]. apply Forall_cons_iff in K. destruct K as [K _]. exists h, kl, (mx C). split; [lia|exact K].
Qed.

(** *** Removal of a child *)
Lemma find_kid_at l1 k l2 i : ~ In (na k) (map na l1) -> find_kid (na k) i (l1 ++ k :: l2) = Some (i + length l1).
Proof.
  revert i. induction l1 as [|y l1 IH]; intros i H; cbn [app find_kid length].
  - rewrite Nat.eqb_refl. f_equal. lia.
  - cbn [map] in H. destruct (Nat.eqb_spec (na y) (na k)) as [E|E]; [exfalso; apply H; now left|].
    rewrite IH by (intros Hi; apply H; now right). f_equal. lia.
Qed.

Definition erased_kids (x : addr) (l : list (nd V)) (l' : list (nd V)) (x' : addr) : Prop :=
  (l' = l /\ x' = x) \/ (l' = map (set_ok false) (readdr x l) /\ x' = x + length l).

Lemma erase_child_ok f k x : ~ In (na k) (map na (fl f)) ->
  exists ks' x', erase_child x (na k) (plug1 f k) =
      (ND (fa f) (fp f) (flf f) (fb f) (fc f - 1) (fok f) ks', x') /\ erased_kids x (fl f ++ frt f) ks' x'.
Proof.
  intros H. unfold erase_child, plug1. rewrite find_kid_at by exact H. cbn [Nat.add].
  rewrite firstn_app, firstn_all, Nat.sub_diag. cbn [firstn]. rewrite app_nil_r.
  assert (Es : skipn (S (length (fl f))) (fl f ++ k :: frt f) = frt f).
  { rewrite skipn_app, skipn_all2 by lia. replace (S (length (fl f)) - length (fl f)) with 1 by lia. reflexivity. }
  rewrite Es. cbn [set_kids].
  match goal with |- context [if ?z then _ else _] => destruct z end; eexists; eexists; (split; [reflexivity|]);
    [left|right]; auto.
Qed.

Lemma erased_core x l l' x' : erased_kids x l l' x' -> map core l' = map core l.
Proof.
  intros [[-> _]|[-> _]]; [reflexivity|]. rewrite <- (core_readdr x l). rewrite map_map. apply map_ext. intros k. now destruct k.
Qed.

Lemma erased_length x l l' x' : erased_kids x l l' x' -> length l' = length l.
Proof. intros E. apply erased_core in E. rewrite <- (map_length core l'), E. apply map_length. Qed.

Lemma erased_boxes x l l' x' : erased_kids x l l' x' -> map nbox l' = map nbox l.
Proof.
  intros E. apply erased_core in E. apply (f_equal (map nbox)) in E. rewrite !map_map in E.
  rewrite (map_ext _ _ core_nbox l), (map_ext _ _ core_nbox l') in E. exact E.
Qed.

Lemma erased_kid x l l' x' h : erased_kids x l l' x' -> Forall (kid h) l -> Forall (kid h) l'.
Proof. intros E. apply erased_core in E. revert E. intros E. apply (core_forall (kid h) l' l); [intros; apply shape_core|now rewrite E]. Qed.

Lemma erased_entries x l l' x' : erased_kids x l l' x' -> flat_map entries l' = flat_map entries l.
Proof.
  intros E. apply erased_core in E. apply (f_equal (map entries)) in E. rewrite !map_map in E.
  rewrite (map_ext _ _ core_entries l), (map_ext _ _ core_entries l') in E. now rewrite !flat_map_concat_map, E.
Qed.

Lemma erased_kaddrs x l l' x' : erased_kids x l l' x' -> flat_map kaddrs l' = flat_map kaddrs l.
Proof.
  intros E. apply erased_core in E. apply (f_equal (map kaddrs)) in E. rewrite !map_map in E.
  rewrite (map_ext _ _ core_kaddrs l), (map_ext _ _ core_kaddrs l') in E. now rewrite !flat_map_concat_map, E.
Qed.

Lemma erased_lkr x l l' x' : erased_kids x l l' x' -> Forall lk l -> Forall lkr l'.
Proof.
  intros [[-> _]|[-> _]] H; [eapply Forall_impl; [apply lk_lkr|exact H]|].
  revert x. induction l as [|k l IH]; intros x; cbn [readdr map]; [constructor|].
  apply Forall_cons_iff in H. destruct H as [H1 H2]. constructor; [|apply IH; exact H2].
  apply lkr_set_false in H1. destruct k; exact H1.
Qed.

Lemma erased_addrs c f k x ks' x' bx cn ok :
  NoDup (addrs (plug c (plug1 f k))) -> Forall (fun z => z < x) (addrs (plug c (plug1 f k))) ->
  erased_kids x (fl f ++ frt f) ks' x' ->
  let t' := plug c (ND (fa f) (fp f) (flf f) bx cn ok ks') in
  NoDup (addrs t') /\ Forall (fun z => z < x') (addrs t') /\ x <= x'.
Proof.
  intros N B E t'. unfold t'. pose proof (erased_kaddrs _ _ _ _ E) as Ek. pose proof E as E0.
  destruct E as [[-> ->]|[-> ->]].
  - destruct (fresh_addrs (addrs (plug c (plug1 f k))) (addrs (plug c (ND (fa f) (fp f) (flf f) bx cn ok (fl f ++ frt f))))
      (addrs k) (addrs (plug c (ND (fa f) (fp f) (flf f) bx cn ok (fl f ++ frt f)))) x 0 N B) as [G1 G2].
    + rewrite !addrs_plug. unfold plug1. cbn [addrs]. rewrite !flat_map_app. cbn [flat_map]. perm.
    + cbn [seq]. rewrite app_nil_r. reflexivity.
    + rewrite Nat.add_0_r in G2. auto.
  - destruct (fresh_addrs (addrs (plug c (plug1 f k)))
      (caddrs c ++ fa f :: flat_map kaddrs (fl f ++ frt f)) (addrs k ++ map na (fl f ++ frt f))
      (addrs (plug c (ND (fa f) (fp f) (flf f) bx cn ok (map (set_ok false) (readdr x (fl f ++ frt f))))))
      x (length (fl f ++ frt f)) N B) as [G1 G2].
    + rewrite !addrs_plug. unfold plug1. cbn [addrs]. rewrite (flat_map_app addrs (fl f) (k :: frt f)). cbn [flat_map].
      pose proof (flat_addrs (fl f ++ frt f)) as Pf. rewrite flat_map_app in Pf.
      transitivity (fa f :: addrs k ++ (flat_map addrs (fl f) ++ flat_map addrs (frt f)) ++ caddrs c); [perm|].
      rewrite Pf. perm.
    + rewrite !addrs_plug. cbn [addrs]. rewrite flat_addrs, Ek.
      rewrite map_map. erewrite map_ext by (intros; apply na_set_ok). rewrite na_readdr. perm.
    + split; [exact G1|]. split; [exact G2|lia].
Qed.

(** *** shrink_tree_upward *)
Lemma shrink_ok c : forall h a p lf b cnt ok ks bb (l1 l2 mid : list box) fuel,
  let N := ND a p lf b cnt ok ks in
  map nbox ks = l1 ++ mid ++ l2 -> Forall lenD (l1 ++ mid ++ l2) -> length bb = dims C ->
  fit (dims C) tg b (l1 ++ bb :: l2) -> (mid = [] \/ exists b', mid = [b'] /\ inside b' bb) ->
  (c <> [] -> l1 ++ mid ++ l2 <> []) ->
  cshape h b c -> NoDup (addrs (plug c N)) -> p = hpar c -> clk c -> length c < fuel ->
  exists c' nb, shrink C fuel (plug c N) (Some a) bb = Ok (plug c' (set_box nb N)) /\
    fit (dims C) tg nb (l1 ++ mid ++ l2) /\ cshape h nb c' /\ csame c c'.
Proof.
  induction c as [|f c IH]; intros h a p lf b cnt ok ks bb l1 l2 mid fuel N Ek Fl Lb Fb Hm Hne Hc Nd Hp Kc Hf;
    (destruct fuel as [|fuel]; [lia|]); cbn [shrink].
  - cbn [plug] in *. change a with (na N) at 1. rewrite get_self. cbn [deref bind]. cbn [nbox N].
    destruct (at_boundary b bb) eqn:Eb.
    + cbn [pack N]. rewrite Ek. set (nb := hull (dims C) (l1 ++ mid ++ l2)).
      assert (Fn : fit (dims C) tg nb (l1 ++ mid ++ l2)) by (apply fit_hull; auto).
      exists [], nb. cbn [plug]. assert (Eu : forall z, upd a z N = z) by (intros z; exact (upd_self z N)).
      rewrite Eu. cbn [npar N]. rewrite Hp. cbn [hpar].
      split; [destruct (negb _); [destruct fuel|]; reflexivity|]. split; [exact Fn|]. split; [exact I|apply csame_refl].
    + exists [], b. cbn [plug]. split; [reflexivity|]. split; [eapply fit_removed; eauto|]. split; [exact I|apply csame_refl].
  - change a with (na N) at 1. rewrite get_plug by exact Nd. cbn [deref bind]. cbn [nbox N].
    cbn [RtShape.cshape] in Hc. destruct Hc as (C1 & C2 & C3 & C4 & C5 & C6).
    cbn [clk] in Kc. destruct Kc as (K1 & K2 & K3).
    destruct (at_boundary b bb) eqn:Eb.
    + cbn [pack N]. rewrite Ek. set (nb := hull (dims C) (l1 ++ mid ++ l2)).
      assert (Fn : fit (dims C) tg nb (l1 ++ mid ++ l2)) by (apply fit_hull; auto).
      match goal with |- context [upd a ?z _] => rewrite (upd_plug (f :: c) N z Nd : upd a _ _ = _) end.
      cbn [set_box npar]. set (N' := ND a p lf nb cnt ok ks).
      assert (Fkids : Forall lenD (map nbox (fl f) ++ nb :: map nbox (frt f))).
      { apply Forall_app in C5. destruct C5 as [C5 C7]. apply Forall_app.
        split; [eapply shape_boxes; eauto|]. constructor; [apply Fn|eapply shape_boxes; eauto]. }
      destruct (negb (box_eqb nb b)) eqn:Ech.
      * subst p. cbn [hpar plug]. unfold N'. cbn [plug1].
        destruct (IH (S h) (fa f) (fp f) (flf f) (fb f) (fc f) (fok f) (fl f ++ N' :: frt f) b
          (map nbox (fl f)) (map nbox (frt f)) [nb] fuel) as (c' & nb' & R & F' & Cs & Sm); auto.
        { rewrite map_app. reflexivity. }
        { apply Fb. }
        { right. exists nb. split; [reflexivity|]. apply hull_least; [apply Hne; discriminate|].
          assert (Fl2 : Forall lenD (l1 ++ bb :: l2)).
          { apply Forall_app in Fl. destruct Fl as [F1 F2]. apply Forall_app in F2. destruct F2 as [_ F2].
            apply Forall_app. split; auto. }
          pose proof (fit_inside _ tg b _ Fl2 Fb) as G. apply Forall_app in G. destruct G as [G1 G2].
          apply Forall_cons_iff in G2. destruct G2 as [G2 G3]. apply Forall_app. split; [auto|]. apply Forall_app. split; [|auto].
          destruct Hm as [->|(x' & -> & Hx)]; [constructor|]. constructor; [|constructor]. eapply inside_trans; eauto. }
        { intros _ E. destruct (map nbox (fl f)); discriminate. }
        { eapply Permutation_NoDup; [|exact Nd]. cbn [plug]. rewrite !addrs_plug. unfold plug1. cbn [addrs].
          rewrite !flat_map_app. cbn [flat_map addrs N N']. reflexivity. }
        { cbn [length] in Hf. lia. }
        exists (FR (fa f) (fp f) (flf f) nb' (fc f) (fok f) (fl f) (frt f) :: c'), nb.
        split; [exact R|]. split; [exact Fn|]. split.
        -- cbn [RtShape.cshape flf fc fl frt fb]. split; [exact C1|]. split; [exact C2|].
           split; [destruct (csame_facts _ _ Sm) as (Sl & _); unfold flo in *;
              destruct c, c'; try discriminate; apply C3|].
           split; [exact F'|]. split; [exact C5|exact Cs].
        -- apply csame_cons; [reflexivity|exact Sm].
      * apply negb_false_iff, box_eqb_eq in Ech.
        exists (f :: c), nb. split; [reflexivity|]. split; [exact Fn|]. split; [|apply csame_refl].
        rewrite Ech. cbn [RtShape.cshape]. auto 6.
    + exists (f :: c), b. split; [reflexivity|]. split; [eapply fit_removed; eauto|]. split; [|apply csame_refl].
      cbn [RtShape.cshape]. auto 6.
Qed.

(** The sizes of the directories above a node, the root first *)
Definition fsize (f : fr V) : nat := length (fl f) + length (frt f) + 1.

Lemma kid0_value k lo hi : shape 0 lo hi k -> exists a p b v, k = NV a p b v /\ length b = dims C.
Proof. destruct k as [a p b v|]; cbn [RtShape.shape]; [|contradiction]. intros H. exists a, p, b, v. auto. Qed.

Lemma kids0_lk l : Forall (kid 0) l -> Forall (@lk V) l.
Proof. intros H. eapply Forall_impl; [|exact H]. intros k Hk. destruct (kid0_value _ _ _ Hk) as (? & ? & ? & ? & -> & _). exact I. Qed.

Lemma erased_par x l l' x' (p : option addr) : erased_kids x l l' x' -> Forall (fun k => npar k = p) l -> Forall (fun k => npar k = p) l'.
Proof.
  intros [[-> _]|[-> _]] H; [exact H|]. revert x. induction l as [|k l IH]; intros x; cbn [readdr map]; [constructor|].
  apply Forall_cons_iff in H. destruct H as [H1 H2]. constructor; [|apply IH; exact H2]. now rewrite npar_set_ok, npar_set_a.
Qed.

Lemma nodup_left c f k : NoDup (addrs (plug c (plug1 f k))) -> ~ In (na k) (map na (fl f)).
Proof.
  intros N Hi. apply nodup_plug in N. unfold plug1 in N. cbn [addrs] in N. apply NoDup_cons_iff in N. destruct N as [_ N].
  rewrite flat_map_app in N. cbn [flat_map] in N. apply in_map_iff in Hi. destruct Hi as (y & Ey & Hy).
  assert (I1 : In (na k) (flat_map addrs (fl f))).
  { apply in_flat_map. exists y. split; [exact Hy|]. rewrite <- Ey, addrs_eq. now left. }
  assert (I2 : In (na k) (addrs k ++ flat_map addrs (frt f))) by (apply in_or_app; left; rewrite addrs_eq; now left).
  clear - N I1 I2. induction (flat_map addrs (fl f)) as [|z l IH]; [destruct I1|]. cbn [app] in N. apply NoDup_cons_iff in N.
  destruct N as [N1 N2]. destruct I1 as [->|I1]; [apply N1; apply in_or_app; now right|auto].
Qed.

(** The frames above a value *)
Lemma value_frames H t a p bb v : shape H (rootlo rl H) (mx C) t -> 1 <= H -> get a t = Some (NV a p bb v) ->
  exists f c, t = plug c (plug1 f (NV a p bb v)) /\ H = 1 + length c /\ length bb = dims C /\
    fc f = fsize f /\ flf f = true /\ lowc rl kl c 1 <= fc f <= mx C /\
    fit (dims C) tg (fb f) (map nbox (fl f) ++ bb :: map nbox (frt f)) /\ Forall (kid 0) (fl f ++ frt f) /\
    cshape 1 (fb f) c.
Proof.
  intros Hs Hh Hg. destruct (get_ctx _ _ _ Hg) as (c & -> & _).
  destruct (shape_ctx _ _ _ _ _ Hs) as (h & lo & hi & -> & Hn). destruct h as [|h]; [|contradiction].
  destruct c as [|f c]; [cbn [length] in Hh; lia|]. exists f, c. cbn [plug length Nat.add] in *. split; [reflexivity|].
  split; [reflexivity|]. split; [exact Hn|].
  destruct (shape_unplug C tg rl rl1 rl2 kl kl1 klm c 1 _ ltac:(lia) Hs) as [Hc Hs1].
  unfold plug1 in Hs1, Hc. cbn [RtShape.shape nbox Nat.eqb] in Hs1, Hc. destruct Hs1 as (S1 & S2 & S3 & S4 & S5).
  rewrite app_length in *. cbn [length] in *. rewrite map_app in S4. cbn [map nbox] in S4.
  apply Forall_app in S5. destruct S5 as [S5 S6]. apply Forall_cons_iff in S6. destruct S6 as [_ S6].
  unfold fsize. split; [lia|]. split; [exact S1|]. split; [lia|]. split; [exact S4|]. split; [|exact Hc].
  apply Forall_app. auto.
Qed.

(** The leaf keeps enough values, or is the root *)
Lemma erase_leaf_ok s H a d p bb v f c : sinv C tg rl kl H s -> get a (root s) = Some (NV a p bb v) ->
  root s = plug c (plug1 f (NV a p bb v)) -> (c = [] \/ mn C < fsize f) ->
  exists s', erase C a d s = Ok s' /\ sinv C tg rl kl H s' /\
    Permutation (entries (root s)) ((bb, v) :: entries (root s')) /\ nok (root s') = nok (root s) /\
    ncnt (root s') <= ncnt (root s) /\ nxt s <= nxt s'.
Proof.
  intros [[Hh Hs] [Lp Lk Ln Lb]] Hg Et Hcase.
  (* the frames are determined by the tree *)
  assert (Hc0 : exists h lo hi, H = h + length (f :: c) /\ shape h lo hi (NV a p bb v)).
  { eapply (shape_ctx (f :: c)). cbn [plug]. rewrite <- Et. exact Hs. }
  destruct Hc0 as (h & lo & hi & EH & Hn). destruct h as [|h]; [|contradiction]. cbn [length Nat.add] in EH. cbn [RtShape.shape] in Hn.
  rewrite Et in Hs, Lp, Lk, Ln, Lb. rewrite EH in Hs.
  destruct (shape_unplug C tg rl rl1 rl2 kl kl1 klm c 1 _ ltac:(lia) Hs) as [Hc Hs1].
  unfold plug1 in Hs1, Hc. cbn [RtShape.shape nbox Nat.eqb] in Hs1, Hc. destruct Hs1 as (S1 & S2 & S3 & S4 & S5).
  rewrite app_length in *. cbn [length] in *. rewrite map_app in S4. cbn [map nbox] in S4.
  apply Forall_app in S5. destruct S5 as [S5 S6]. apply Forall_cons_iff in S6. destruct S6 as [_ S6].
  assert (S7 : Forall (kid 0) (fl f ++ frt f)) by (apply Forall_app; auto).
  destruct (lk_unplug c _ Lk Lp) as (Kc & Hp & Hlk). cbn [plug1 npar] in Hp. unfold plug1 in Hlk. apply lk_dir in Hlk.
  apply Forall_app in Hlk. destruct Hlk as [Hk1 Hk2]. apply Forall_cons_iff in Hk2. destruct Hk2 as [[Hpv _] Hk2]. cbn [npar] in Hpv.
  unfold erase. rewrite Hg. cbn [deref bind nbox npar]. rewrite Hpv. cbn [deref bind].
  assert (Eg : get (fa f) (root s) = Some (plug1 f (NV a p bb v))) by (rewrite Et; exact (get_plug c (plug1 f (NV a p bb v)) Ln)).
  rewrite Eg. cbn [deref bind].
  destruct (erase_child_ok f (NV a p bb v) (nxt s) (nodup_left c f _ Ln)) as (ks' & x' & Ee & Ek). cbn [na] in Ee. rewrite Ee. clear Ee.
  set (n' := ND (fa f) (fp f) (flf f) (fb f) (fc f - 1) (fok f) ks').
  assert (Eu : upd (fa f) n' (root s) = plug c n') by (rewrite Et; exact (upd_plug c (plug1 f (NV a p bb v)) n' Ln)).
  rewrite Eu. clear Eu.
  destruct (erased_addrs c f _ _ _ _ (fb f) (fc f - 1) (fok f) Ln Lb Ek) as (N1 & B1 & X1). fold n' in N1, B1.
  pose proof (erased_kid _ _ _ _ 0 Ek S7) as S8. pose proof (erased_boxes _ _ _ _ Ek) as Eb. pose proof (erased_length _ _ _ _ Ek) as El.
  rewrite map_app in Eb. rewrite app_length in El.
  destruct (shrink_ok c 1 (fa f) (fp f) (flf f) (fb f) (fc f - 1) (fok f) ks' bb (map nbox (fl f)) (map nbox (frt f)) []
     (nnodes (plug c n'))) as (c' & nb & R & Fn & Cs & Sm); auto.
  { cbn [app]. rewrite <- map_app. eapply shape_boxes. exact S7. }
  { intros Nc E. cbn [app] in E. rewrite <- map_app in E. apply map_eq_nil in E. apply app_eq_nil in E. destruct E as [E1 E2].
    destruct Hcase as [|Hcase]; [congruence|]. unfold fsize in Hcase. rewrite E1, E2 in Hcase. cbn [length] in Hcase.
    pose proof (t_min C T). lia. }
  { apply nnodes_plug. }
  cbn [app] in Fn. fold n' in R.
  assert (Rt : (match npar n' with
    | Some ga => if Nat.leb (mn C) (ncnt n') then True else False
    | None => True end)).
  { cbn [n' npar ncnt]. rewrite Hp. destruct c as [|g c0]; cbn [hpar]; [exact I|].
    destruct Hcase as [|Hcase]; [discriminate|]. unfold fsize in Hcase.
    destruct (Nat.leb_spec (mn C) (fc f - 1)); [exact I|lia]. }
  assert (Rs : exists t', t' = plug c' (set_box nb n') /\ (match npar n' with
    | Some ga => if Nat.leb (mn C) (ncnt n') then shrink C (nnodes (plug c n')) (plug c n') (Some (fa f)) bb else Undef
    | None => shrink C (nnodes (plug c n')) (plug c n') (Some (fa f)) bb end) = Ok t').
  { exists (plug c' (set_box nb n')). split; [reflexivity|]. destruct (npar n'); [|exact R]. destruct (Nat.leb _ _); [exact R|contradiction]. }
  assert (Rf : forall Z, (match npar n' with
    | Some ga => if Nat.leb (mn C) (ncnt n') then let* t := shrink C (nnodes (plug c n')) (plug c n') (Some (fa f)) bb in Ok (ST t x') else Z ga
    | None => let* t := shrink C (nnodes (plug c n')) (plug c n') (Some (fa f)) bb in Ok (ST t x') end) = Ok (ST (plug c' (set_box nb n')) x')).
  { intros Z. rewrite R. destruct (npar n'); [|reflexivity]. destruct (Nat.leb _ _); [reflexivity|contradiction]. }
  exists (ST (plug c' (set_box nb n')) x'). split; [apply Rf|]. clear Rf Rs Rt R.
  destruct (csame_facts _ _ Sm) as (Sl & Sa & Se & Sp & Sk).
  cbn [root nxt]. split; [|split; [|split; [|split; [|exact X1]]]].
  - constructor; cbn [root nxt].
    + rewrite EH. rewrite Sl. apply (shape_plug C tg rl rl1 rl2 kl kl1 klm c' 1); [lia|exact Cs|].
      cbn [set_box n' RtShape.shape Nat.eqb]. split; [exact S1|]. split; [lia|]. split; [|split; [rewrite Eb; exact Fn|exact S8]].
      assert (lowc rl kl c' 1 <= length ks'); [|lia]. unfold lowc, rootlo in *. cbn [Nat.eqb] in *.
      destruct c as [|g c0], c' as [|g' c0']; try discriminate; [lia|]. destruct Hcase as [|Hcase]; [discriminate|]. unfold fsize in Hcase. lia.
    + assert (Hlk' : lk (set_box nb n')).
      { apply lk_set_box. unfold n'. apply lk_dir. assert (Hq : Forall (fun k => npar k = Some (fa f)) ks').
        { eapply erased_par; [exact Ek|]. apply Forall_app. split; (eapply Forall_impl; [|eassumption]); cbn; tauto. }
        pose proof (kids0_lk _ S8) as Hl. rewrite Forall_forall in *. auto. }
      destruct (lk_plug c' (set_box nb n') (Sk Kc)) as [L1 L2]; [cbn [set_box n' npar]; congruence|exact Hlk'|].
      constructor; auto.
      * eapply Permutation_NoDup; [|exact N1]. rewrite !addrs_plug, Sa, addrs_set_box. reflexivity.
      * eapply Permutation_Forall; [|exact B1]. rewrite !addrs_plug, Sa, addrs_set_box. reflexivity.
  - rewrite Et, !entries_plug. rewrite <- Se. unfold plug1, n'. cbn [set_box entries]. rewrite (erased_entries _ _ _ _ Ek).
    rewrite !flat_map_app. cbn [flat_map entries]. perm.
  - rewrite Et. destruct (csame_root _ _ (set_box nb n') Sm) as (R1 & _). rewrite <- R1.
    destruct c as [|g c0]; [reflexivity|]. apply plug_root. discriminate.
  - rewrite Et. destruct (csame_root _ _ (set_box nb n') Sm) as (_ & _ & R1). rewrite <- R1.
    destruct c as [|g c0]; [cbn [plug set_box n' plug1 ncnt]; lia|].
    destruct (plug_root (g :: c0) (set_box nb n') (plug1 f (NV a p bb v))) as (_ & _ & ->); [discriminate|]. lia.
Qed.

End E.
