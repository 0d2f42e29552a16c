(** Insertion into a linked tree. *)

From Coq Require Import List ZArith Lia Bool Permutation.
From Verif Require Import Base RtModel RtBox RtPerm RtTree RtShape RtSplit.
Import ListNotations.
Open Scope nat_scope.

(** ** Positions of a forced reinsertion *)
Section P.
Context {V : Type}.
Implicit Types (ks : list (nd V)) (ps : list nat).

Lemma not_at_skip i p ps ks : p < i -> not_at i (p :: ps) ks = not_at i ps ks.
Proof.
  revert i. induction ks as [|k ks IH]; intros i L; cbn [not_at existsb]; [reflexivity|].
  assert (E : Nat.eqb i p = false) by (apply Nat.eqb_neq; lia). rewrite E. cbn [orb]. rewrite IH by lia. reflexivity.
Qed.

Lemma not_at_one i p ps ks k : i <= p -> ~ In p ps -> nth_error ks (p - i) = Some k ->
  Permutation (not_at i ps ks) (k :: not_at i (p :: ps) ks).
Proof.
  revert i. induction ks as [|k0 ks IH]; intros i L N E; [destruct (p - i); discriminate|].
  cbn [not_at existsb]. destruct (Nat.eqb_spec i p) as [->|Ne].
  - rewrite Nat.sub_diag in E. cbn in E. injection E as ->. cbn [orb].
    assert (Ex : existsb (Nat.eqb p) ps = false).
    { apply not_true_is_false. intros H. apply existsb_exists in H. destruct H as (z & Hz & Ez).
      apply Nat.eqb_eq in Ez. subst. auto. }
    rewrite Ex, not_at_skip by lia. reflexivity.
  - cbn [orb]. replace (p - i) with (S (p - S i)) in E by lia. cbn [nth_error] in E.
    specialize (IH (S i) ltac:(lia) N E). destruct (existsb (Nat.eqb i) ps); [exact IH|].
    rewrite IH. apply perm_swap.
Qed.

Lemma not_at_nil i ks : not_at i [] ks = ks.
Proof. revert i. induction ks as [|k ks IH]; intros i; cbn [not_at existsb]; [|rewrite IH]; reflexivity. Qed.

Lemma positions_perm ps ks : NoDup ps -> Forall (fun p => p < length ks) ps ->
  Permutation (at_positions ps ks ++ not_at 0 ps ks) ks /\ length (at_positions ps ks) = length ps.
Proof.
  induction ps as [|p ps IH]; intros N B; cbn [at_positions].
  - rewrite not_at_nil. split; reflexivity.
  - inversion N; subst. inversion B; subst. destruct IH as [IH1 IH2]; auto.
    destruct (nth_error ks p) as [k|] eqn:E; [|apply nth_error_None in E; lia].
    split; [|cbn [length]; lia].
    pose proof (not_at_one 0 p ps ks k ltac:(lia) H1 ltac:(now rewrite Nat.sub_0_r)) as Q.
    etransitivity; [|exact IH1]. rewrite Q. perm.
Qed.

Lemma by_distance_perm (C : cfg) (T : traits_ok C) b ks :
  Permutation (by_distance C b ks) (seq 0 (length ks)).
Proof.
  unfold by_distance.
  rewrite (Permutation_map snd (t_sort C T _ _ _)).
  assert (G : forall (l1 : list Z) (l2 : list nat), length l1 = length l2 -> map snd (combine l1 l2) = l2).
  { induction l1 as [|x l1 IH]; intros [|y l2] L; cbn in *; try discriminate; auto. f_equal. apply IH. lia. }
  rewrite G; [reflexivity|]. now rewrite map_length, seq_length.
Qed.

End P.

Section I.
Context {V : Type}.
Variable C : cfg.
Hypothesis T : traits_ok C.
Variable tg : bool.
Variable rl : nat.
Hypothesis rl1 : 1 <= rl.
Hypothesis rl2 : rl <= 2.
Variable kl : nat.
Hypothesis kl1 : 1 <= kl.
Hypothesis klm : kl <= mn C.
Implicit Types (n k t : nd V) (ks l : list (nd V)) (c : list (fr V)) (s : st V).

Notation shape := (shape C tg kl).
Notation cshape := (cshape C tg rl kl).
Notation tshape := (tshape C tg rl kl).
Notation kid h := (shape h kl (mx C)).

Lemma min_overlap_in bb l : forall best, Forall (fun k => is_dir k = true) l ->
  (l <> [] \/ best <> None) ->
  exists k, min_overlap l bb best = Ok k /\ (In k l \/ (exists o e w, best = Some (o, e, w, k))).
Proof.
  induction l as [|k l IH]; intros best F N; cbn [min_overlap].
  - destruct best as [[[[o e] w] k]|]; [|destruct N; congruence]. exists k. split; [reflexivity|]. right. eauto.
  - apply Forall_cons_iff in F. destruct F as [Fk F]. destruct k as [|a p lf b c ok gs]; [discriminate|].
    set (k := ND a p lf b c ok gs) in *.
    assert (G : forall best', best' <> None ->
      (best' = best \/ exists o e w, best' = Some (o, e, w, k)) ->
      exists k0, min_overlap l bb best' = Ok k0 /\ (In k0 (k :: l) \/ (exists o e w, best = Some (o, e, w, k0)))).
    { intros best' Nb Eb. destruct (IH best' F (or_intror Nb)) as (k0 & R & [I|(o & e & w & E)]).
      - exists k0. split; [exact R|]. left. right. exact I.
      - exists k0. split; [exact R|]. destruct Eb as [->|(o' & e' & w' & ->)]; [right; eauto|].
        injection E as _ _ _ <-. left. left. reflexivity. }
    destruct best as [[[[o' e'] w'] k']|]; [|apply G; [discriminate|right; eauto]].
    destruct (_ || _); apply G; try discriminate; [right; eauto|left; reflexivity].
Qed.

Lemma min_area_in bb l : forall best, (l <> [] \/ best <> None) ->
  exists k, min_area l bb best = Ok k /\ (In k l \/ (exists e w, best = Some (e, w, k))).
Proof.
  induction l as [|k l IH]; intros best N; cbn [min_area].
  - destruct best as [[[e w] k]|]; [|destruct N; congruence]. exists k. split; [reflexivity|]. right. eauto.
  - assert (G : forall best', best' <> None ->
      (best' = best \/ exists e w, best' = Some (e, w, k)) ->
      exists k0, min_area l bb best' = Ok k0 /\ (In k0 (k :: l) \/ (exists e w, best = Some (e, w, k0)))).
    { intros best' Nb Eb. destruct (IH best' (or_intror Nb)) as (k0 & R & [I|(e & w & E)]).
      - exists k0. split; [exact R|]. left. right. exact I.
      - exists k0. split; [exact R|]. destruct Eb as [->|(e' & w' & ->)]; [right; eauto|].
        injection E as _ _ <-. left. left. reflexivity. }
    destruct best as [[[e' w'] k']|]; [|apply G; [discriminate|right; eauto]].
    destruct (_ || _); apply G; try discriminate; [right; eauto|left; reflexivity].
Qed.

Lemma shape_is_dir h lo hi l : Forall (shape (S h) lo hi) l -> Forall (fun k => is_dir k = true) l.
Proof. intros H. eapply Forall_impl; [|exact H]. intros [|]; cbn [RtShape.shape]; [tauto|reflexivity]. Qed.

Lemma find_leaf_ok h : forall n lo hi fuel i bb, shape (S h) lo hi n -> (1 <= lo \/ h = 0) ->
  (S h <= fuel -> exists c m, n = plug c m /\ length c = h /\ find_leaf fuel i bb n = Ok (na m, i + h)) /\
  (fuel <= h -> find_leaf fuel i bb n = Throw E_general).
Proof.
  induction h as [|h IH]; intros n lo hi fuel i bb Hs Hlo.
  - destruct n as [|a p lf b c ok ks]; [contradiction|]. cbn [RtShape.shape] in Hs. destruct Hs as (-> & _).
    split; intros Hf.
    + exists [], (ND a p true b c ok ks). destruct fuel; [lia|]. cbn. rewrite Nat.add_0_r. auto.
    + destruct fuel; [reflexivity|lia].
  - destruct n as [|a p lf b c ok ks]; [contradiction|].
    change (lf = Nat.eqb (S h) 0 /\ c = length ks /\ (lo <= length ks <= hi) /\
      fit (dims C) tg b (map nbox ks) /\ Forall (kid (S h)) ks) in Hs.
    destruct Hs as (-> & _ & Hl & _ & Hk). destruct Hlo as [Hlo|]; [|lia].
    destruct fuel as [|fuel]; [split; [lia|reflexivity]|]. cbn [find_leaf Nat.eqb].
    assert (Nk : ks <> []) by (destruct ks; [cbn in Hl; lia|discriminate]).
    assert (Hm : exists k, (if has_leaf ks then min_overlap ks bb None else min_area ks bb None) = Ok k /\ In k ks).
    { destruct (has_leaf ks).
      - destruct (min_overlap_in bb ks None (shape_is_dir _ _ _ _ Hk) (or_introl Nk)) as (k & R & [I|(o & e & w & E)]);
          [eauto|discriminate].
      - destruct (min_area_in bb ks None (or_introl Nk)) as (k & R & [I|(e & w & E)]); [eauto|discriminate]. }
    destruct Hm as (k & -> & I). cbn [bind].
    apply in_split in I. destruct I as (l1 & l2 & ->).
    apply Forall_elt in Hk.
    destruct (IH k kl (mx C) fuel (S i) bb Hk) as [I1 I2]; [left; exact kl1|].
    split; intros Hf.
    + destruct I1 as (c' & m & E & Lc & R); [lia|].
      exists (c' ++ [FR a p false b c ok l1 l2]), m. split; [|split].
      * rewrite plug_app. cbn [plug]. unfold plug1. cbn [fa fp flf fb fc fok fl frt]. now rewrite <- E.
      * rewrite app_length. cbn [length]. lia.
      * rewrite R. f_equal. f_equal. lia.
    + apply I2. lia.
Qed.

(** *** The set of depths and the fuel *)
Definition rd_ok (fuel : nat) (rd : depths) : Prop :=
  match rd with
  | None => True
  | Some ds => NoDup ds /\ Forall (fun d => d <= maxdepth C) ds /\ S (maxdepth C) <= fuel + length ds
  end.
Definition rd_in (d : nat) (rd : depths) : Prop :=
  match rd with None => True | Some ds => In d ds end.
Definition rd_le (rd rd' : depths) : Prop := forall d, rd_in d rd -> rd_in d rd'.

Definition bounded (N : nat) : Prop :=
  forall H t, tshape H t -> length (entries t) <= N -> H <= S (maxdepth C).

Record sinv (H : nat) (s : st V) : Prop := {
  s_shape : tshape H (root s);
  s_linv : linv (root s) (nxt s) }.

(** growth of the root that an insertion may cause *)
Definition grow (m : nat) (H : nat) (s : st V) (H' : nat) (s' : st V) : Prop :=
  sinv H' s' /\ na (root s') = na (root s) /\ H <= H' /\
  (nok (root s) = false -> nok (root s') = false) /\
  (nok (root s) = true -> H' = H /\ nok (root s') = true /\ ncnt (root s') <= ncnt (root s) + m).

Definition ins_post (m fuel : nat) (H : nat) (s : st V) (l : list (box * V)) (rd : depths)
  (r : res (st V * depths)) : Prop :=
  exists s' rd' H', r = Ok (s', rd') /\ grow m H s H' s' /\
    Permutation (entries (root s')) (l ++ entries (root s)) /\ rd_ok fuel rd' /\ rd_le rd rd'.

Definition ins_ok (m fuel : nat) (N : nat) (H : nat) (s : st V) (l : list (box * V)) (rd : depths)
  (r : res (st V * depths)) : Prop :=
  (r = Throw E_general /\ ~ bounded N) \/ ins_post m fuel H s l rd r.

Lemma grow_refl m H s : sinv H s -> grow m H s H s.
Proof. intros I. split; [exact I|]. split; [auto|]. split; [auto|]. split; [auto|]. intros E. repeat split; auto; lia. Qed.

Lemma grow_trans m1 m2 H1 s1 H2 s2 H3 s3 : grow m1 H1 s1 H2 s2 -> grow m2 H2 s2 H3 s3 ->
  grow (m1 + m2) H1 s1 H3 s3.
Proof.
  intros (A1 & A2 & A3 & A4 & A5) (B1 & B2 & B3 & B4 & B5).
  split; [exact B1|]. split; [congruence|]. split; [lia|]. split; [auto|].
  intros E. destruct (A5 E) as (E1 & E2 & E3). destruct (B5 E2) as (E4 & E5 & E6).
  split; [congruence|]. split; [auto|]. lia.
Qed.

(** the nested insertions of a forced reinsertion *)
Definition go_ins (f : nat) : list (nd V) -> st V -> depths -> res (st V * depths) :=
  fix go l s rd :=
  match l with
  | [] => Ok (s, rd)
  | NV _ _ b' v' :: r => let* (s, rd) := insert_ns C f s b' v' rd in go r s rd
  | ND _ _ _ _ _ _ _ :: _ => Undef
  end.

Lemma go_ins_cons f a p b v r s rd : go_ins f (NV a p b v :: r) s rd =
  let* (s, rd) := insert_ns C f s b v rd in go_ins f r s rd.
Proof. reflexivity. Qed.

Definition ins_spec (f : nat) : Prop := forall s bb v rd H N m,
  sinv H s -> length bb = dims C -> rd_ok f rd -> length (entries (root s)) <= N ->
  (m = reins C \/ (m = 1 /\ rd_in (H - 1) rd)) ->
  (nok (root s) = true -> ncnt (root s) + m <= mx C) ->
  ins_ok m f N H s [(bb, v)] rd (insert_ns C f s bb v rd).

Lemma go_ok f : ins_spec f -> forall l s rd H N,
  sinv H s -> Forall (kid 0) l -> rd_ok f rd -> rd_in (H - 1) rd ->
  length (entries (root s)) + length l <= S N ->
  (nok (root s) = true -> ncnt (root s) + length l <= mx C) ->
  ins_ok (length l) f N H s (flat_map entries l) rd (go_ins f l s rd).
Proof.
  intros IH. induction l as [|k l IHl]; intros s rd H N Si Hl Hr Hin HN Hroom.
  - right. exists s, rd, H. split; [reflexivity|]. split; [now apply grow_refl|].
    split; [reflexivity|]. split; [auto|]. intros d Hd; exact Hd.
  - apply Forall_cons_iff in Hl. destruct Hl as [Hk Hl]. destruct k as [a p b v|]; [|contradiction].
    cbn [RtShape.shape] in Hk. cbn [length] in *. rewrite go_ins_cons. cbn [flat_map entries app].
    assert (L1 : nok (root s) = true -> ncnt (root s) + 1 <= mx C) by (intros E; specialize (Hroom E); lia).
    destruct (IH s b v rd H N 1 Si Hk Hr) as [[-> Hb]|(s1 & rd1 & H1 & -> & G1 & P1 & R1 & I1)];
      [lia|right; auto|exact L1|left; split; [reflexivity|exact Hb]|].
    cbn [bind].
    pose proof G1 as (G1a & G1b & G1c & G1d & G1e).
    pose proof (Permutation_length P1) as Le. cbn [length app] in Le.
    destruct (Nat.eq_dec H1 H) as [->|Hne].
    + destruct (IHl s1 rd1 H N G1a Hl R1) as [[-> Hb]|(s2 & rd2 & H2 & -> & G2 & P2 & R2 & I2)].
      * apply I1, Hin.
      * lia.
      * intros E. destruct (nok (root s)) eqn:E0; [|rewrite G1d in E by reflexivity; discriminate].
        specialize (Hroom eq_refl). destruct (G1e eq_refl) as (_ & _ & G). lia.
      * left. auto.
      * right. exists s2, rd2, H2. split; [reflexivity|].
        split; [exact (grow_trans 1 (length l) H s H s1 H2 s2 G1 G2)|].
        split; [rewrite P2, P1; cbn [app]; perm|]. split; [auto|]. intros d Hd. auto.
    + assert (Gf : forall l s rd H, sinv H s -> Forall (kid 0) l -> rd_ok f rd ->
          length (entries (root s)) + length l <= S N -> nok (root s) = false ->
          ins_ok (length l) f N H s (flat_map entries l) rd (go_ins f l s rd)).
      { clear - IH rl1 rl2 kl1 klm T. induction l as [|k l IHl]; intros s rd H Si Hl Hr HN E0.
        - right. exists s, rd, H. split; [reflexivity|]. split; [now apply grow_refl|].
          split; [reflexivity|]. split; [auto|]. intros d Hd; exact Hd.
        - apply Forall_cons_iff in Hl. destruct Hl as [Hk Hl]. destruct k as [a p b v|]; [|contradiction].
          cbn [RtShape.shape] in Hk. cbn [length] in *. rewrite go_ins_cons. cbn [flat_map entries app].
          destruct (IH s b v rd H N (reins C) Si Hk Hr) as [[-> Hb]|(s1 & rd1 & H1 & -> & G1 & P1 & R1 & I1)];
            [lia|left; auto|rewrite E0; discriminate|left; split; [reflexivity|exact Hb]|].
          cbn [bind]. pose proof G1 as (G1a & G1b & G1c & G1d & G1e).
          pose proof (Permutation_length P1) as Le. cbn [length app] in Le.
          destruct (IHl s1 rd1 H1 G1a Hl R1) as [[-> Hb]|(s2 & rd2 & H2 & -> & G2 & P2 & R2 & I2)]; auto; [lia|left; auto|].
          right. exists s2, rd2, H2. split; [reflexivity|].
          split; [|split; [rewrite P2, P1; cbn [app]; perm|split; [auto|intros d Hd; auto]]].
          destruct G2 as (B1 & B2 & B3 & B4 & B5). split; [exact B1|]. split; [congruence|]. split; [lia|].
          split; [auto|]. rewrite E0. discriminate. }
      assert (E0 : nok (root s) = false) by (destruct (nok (root s)); [destruct (G1e eq_refl); congruence|reflexivity]).
      destruct (Gf l s1 rd1 H1 G1a Hl R1) as [[-> Hb]|(s2 & rd2 & H2 & -> & G2 & P2 & R2 & I2)]; auto; [lia|left; auto|].
      right. exists s2, rd2, H2. split; [reflexivity|].
      split; [|split; [rewrite P2, P1; cbn [app]; perm|split; [auto|intros d Hd; auto]]].
      destruct G2 as (B1 & B2 & B3 & B4 & B5). split; [exact B1|]. split; [congruence|]. split; [lia|].
      split; [auto|]. rewrite E0. discriminate.
Qed.

Lemma kaddrs0 l : Forall (kid 0) l -> flat_map kaddrs l = [].
Proof.
  induction l as [|k l IH]; intros H; [reflexivity|]. apply Forall_cons_iff in H. destruct H as [Hk H].
  cbn [flat_map]. rewrite (IH H). destruct k; [reflexivity|contradiction].
Qed.

Lemma lk0 a l : Forall (kid 0) l -> Forall (fun k => npar k = Some a) l ->
  Forall (fun k => npar k = Some a /\ lk k) l.
Proof.
  intros H1 H2. rewrite Forall_forall in *. intros k Hk. split; [auto|]. specialize (H1 k Hk).
  destruct k; [exact I|contradiction].
Qed.

Lemma insert_ns_eq fuel s bb v rd : insert_ns C fuel s bb v rd =
  let* (a, depth) := find_leaf (S (maxdepth C)) 0 bb (root s) in
  let* n := deref (get a (root s)) in
  match n with
  | NV _ _ _ _ => Undef
  | ND _ p lf b c ok ks =>
      let n := ND a p lf b (S c) ok (ks ++ [NV (nxt s) (Some a) bb v]) in
      let s := ST (upd a n (root s)) (S (nxt s)) in
      if exceeds C n then
        match rd with
        | Some ds =>
            if forced C && negb (existsb (Nat.eqb depth) ds) then
              match fuel with
              | O => Undef
              | S f =>
                  let ps := firstn (reins C) (by_distance C b (nkids n)) in
                  let out := at_positions ps (nkids n) in
                  let rest := not_at 0 ps (nkids n) in
                  let rest := reslot (map na (nkids n)) rest in
                  let (n', ch) := pack C (ND a p lf b (S c - reins C) ok rest) in
                  let t := upd a n' (root s) in
                  let* t := (if ch then pack_upward C (nnodes t) t p else Ok t) in
                  go_ins f out (ST t (nxt s)) (Some (depth :: ds))
              end
            else
              let* s := split_node C (nnodes (root s)) s a in Ok (s, rd)
        | None => let* s := split_node C (nnodes (root s)) s a in Ok (s, rd)
        end
      else
        let* s := enlarge_from s n bb in Ok (s, rd)
  end.
Proof. destruct fuel; reflexivity. Qed.

Lemma insert_ns_step f : (forall f', f = S f' -> ins_spec f') -> ins_spec f.
Proof.
  intros IH s bb v rd H N m Si Hbb Hrd HN Hm Hroom. pose proof Si as [[Hh Hs] [Lp Lk Ln Lb]].
  destruct H as [|h]; [lia|].
  assert (Hlo : 1 <= rootlo rl (S h) \/ h = 0)
    by (unfold rootlo; destruct (Nat.eqb_spec (S h) 1); [right|left]; lia).
  destruct (find_leaf_ok h (root s) (rootlo rl (S h)) (mx C) (S (maxdepth C)) 0 bb Hs Hlo) as [F1 F2].
  rewrite insert_ns_eq.
  destruct (le_lt_dec (S h) (S (maxdepth C))) as [Hd|Hd];
    [|left; split; [rewrite F2 by lia; reflexivity
      |intros Bd; specialize (Bd (S h) (root s) (conj Hh Hs) HN); lia]].
  destruct (F1 Hd) as (c & n0 & Et & Lc & Fl). clear F1 F2. rewrite Fl. clear Fl. cbn [bind Nat.add].
  rewrite Et in Hs, Lp, Lk, Ln, Lb, HN. rewrite Et at 1. rewrite (get_plug c n0 Ln). cbn [deref bind].
  replace (S h) with (1 + length c) in Hs by lia.
  destruct (shape_unplug C tg rl rl1 rl2 kl kl1 klm c 1 n0 ltac:(lia) Hs) as [Hc Hn0].
  destruct n0 as [|a p lf b cnt ok ks]; [contradiction|]. cbn [RtShape.shape Nat.eqb] in Hn0.
  destruct Hn0 as (-> & Ecnt & Hcnt & Hfit & Hks).
  destruct (lk_unplug c _ Lk Lp) as (Kc & Hp & Hlk). cbn [npar] in Hp. apply lk_dir in Hlk.
  cbn [na nbox] in *. cbv zeta.
  set (nw := NV (nxt s) (Some a) bb v). set (n0 := ND a p true b cnt ok ks) in *.
  set (n1 := ND a p true b (S cnt) ok (ks ++ [nw])).
  cbn [root nxt].
  assert (Eu : upd a n1 (root s) = plug c n1) by (rewrite Et; exact (upd_plug c n0 n1 Ln)).
  rewrite Eu. clear Eu.
  set (x := nxt s) in *.
  (* the tree with the value appended *)
  assert (Fr : NoDup (addrs (plug c n1)) /\ Forall (fun z => z < x + 1) (addrs (plug c n1))).
  { apply (fresh_addrs (addrs (plug c n0)) (addrs (plug c n0)) []);
      [exact Ln|exact Lb|rewrite app_nil_r; reflexivity|].
    rewrite !addrs_plug. unfold n1, n0, nw. cbn [addrs seq]. rewrite flat_map_app. cbn [flat_map addrs]. perm. }
  destruct Fr as [N1 B1]. replace (x + 1) with (S x) in B1 by lia.
  assert (Hks1 : Forall (kid 0) (ks ++ [nw])) by (apply Forall_app; split; [exact Hks|constructor; [exact Hbb|constructor]]).
  assert (Hpa1 : Forall (fun k => npar k = Some a) (ks ++ [nw])).
  { apply Forall_app; split; [eapply Forall_impl; [|exact Hlk]; cbn; tauto|constructor; [reflexivity|constructor]]. }
  assert (Hlk1 : lk n1) by (apply lk_dir; now apply lk0).
  assert (Ee : Permutation (entries (plug c n1)) ((bb, v) :: entries (root s))).
  { rewrite Et, !entries_plug. unfold n1, n0, nw. cbn [entries]. rewrite flat_map_app. cbn [flat_map entries]. perm. }
  assert (Rt : na (plug c n1) = na (root s) /\ nok (plug c n1) = nok (root s) /\
       (c <> [] -> ncnt (plug c n1) = ncnt (root s)) /\ ncnt (plug c n1) <= S (ncnt (root s))).
  { rewrite Et. destruct c as [|f0 c0]; [cbn [plug na nok n1 n0 ncnt]; repeat split; auto; congruence|].
    destruct (plug_root (f0 :: c0) n1 n0) as (R1 & R2 & R3); [discriminate|]. rewrite R1, R2, R3. auto. }
  destruct Rt as (Rt1 & Rt2 & Rt3 & Rt4).
  assert (Hm1 : 1 <= m) by (pose proof (t_reins C T); lia).
  assert (Rin : rd_le rd rd) by (intros d Hd'; exact Hd').
  unfold exceeds at 1. cbn [n1]. fold n1.
  destruct (Nat.ltb_spec (mx C) (S cnt)) as [Ov|Ov].
  2:{ (* room in the leaf *)
    right.
    unfold enlarge_from. cbn [ncnt nbox npar n1 root nxt na]. fold n1.
    match goal with |- context [enlarge_up _ _ _ ?z] => set (nb := z) end.
    rewrite (upd_plug c n1 (set_box nb n1) N1 : upd a _ _ = _).
    assert (N2 : NoDup (addrs (plug c (set_box nb n1)))).
    { eapply Permutation_NoDup; [|exact N1]. rewrite !addrs_plug. reflexivity. }
    assert (Hnb : fit (dims C) tg nb (map nbox (ks ++ [nw]))).
    { rewrite map_app. cbn [map nbox nw]. unfold nb. destruct (Nat.eqb_spec (S cnt) 1) as [E1|E1].
      - destruct ks; [|cbn in Ecnt; lia]. apply fit_one. exact Hbb.
      - apply fit_snoc; auto. intros E. apply map_eq_nil in E. subst ks. cbn in Ecnt. lia. }
    assert (Ec : exists c', enlarge_up (nnodes (plug c (set_box nb n1))) (plug c (set_box nb n1)) p nb =
                   Ok (plug c' (set_box nb n1)) /\ cshape 1 nb c' /\ csame c c').
    { rewrite Hp. destruct (Nat.eqb_spec (S cnt) 1) as [E1|E1].
      - destruct c as [|f0 c0]; [exists []; split; [destruct (nnodes (plug [] (set_box nb n1))); reflexivity|split; [exact I|apply csame_refl]]|].
        cbn [lowc] in Hcnt. pose proof (t_min C T). lia.
      - apply (enlarge_up_ok C tg rl rl1 rl2 kl kl1 klm c 1 (set_box nb n1) b nb); auto; [apply Hfit| |].
        + cbn [set_box nbox n1]. unfold nb. symmetry. apply enl_idem.
        + pose proof (nnodes_plug c (set_box nb n1)). lia. }
    destruct Ec as (c' & -> & Cs & Sm). cbn [bind].
    destruct (csame_facts _ _ Sm) as (G1 & G2 & G3 & G4 & G5).
    eexists _, rd, (S h). split; [reflexivity|]. split; [|split; [|split; [auto|exact Rin]]].
    - split; [constructor; cbn [root nxt]|].
      + replace (S h) with (1 + length c') by lia. apply shape_plug; auto.
        cbn [set_box n1 RtShape.shape]. split; [reflexivity|]. split; [rewrite app_length; cbn [length]; lia|].
        split; [|split; [exact Hnb|exact Hks1]]. rewrite app_length. cbn [length].
        destruct c, c'; try discriminate; cbn [lowc] in *; lia.
      + destruct (lk_plug c' (set_box nb n1)) as [K1 K2]; auto; [cbn [set_box n1 npar]; congruence|].
        constructor; auto.
        * eapply Permutation_NoDup; [apply (addrs_csame c c'), Sm|exact N2].
        * eapply Permutation_Forall; [apply (addrs_csame c c'), Sm|]. rewrite addrs_plug in B1 |- *. exact B1.
      + cbn [root]. destruct (csame_root c c' (set_box nb n1) Sm) as (R1 & R2 & R3).
        rewrite <- R1, <- R2, <- R3.
        assert (Q : na (plug c (set_box nb n1)) = na (plug c n1) /\ nok (plug c (set_box nb n1)) = nok (plug c n1) /\
          ncnt (plug c (set_box nb n1)) = ncnt (plug c n1)).
        { destruct c as [|f0 c0]; [repeat split; reflexivity|].
          destruct (plug_root (f0 :: c0) (set_box nb n1) n1) as (Q1 & Q2 & Q3); [discriminate|]. auto. }
        destruct Q as (Q1 & Q2 & Q3). rewrite Q1, Q2, Q3. split; [auto|]. split; [auto|].
        split; [congruence|]. intros E. split; [auto|]. split; [congruence|]. lia.
    - cbn [root app]. rewrite <- Ee, !entries_plug, G3. reflexivity. }
  assert (Ec : cnt = mx C) by (destruct c; cbn [lowc] in Hcnt; lia).
  (* split *)
  assert (Spl : exists s', split_node C (nnodes (plug c n1)) (ST (plug c n1) (S x)) a = Ok s' /\
     exists H', grow m (S h) s H' s' /\ Permutation (entries (root s')) ((bb, v) :: entries (root s))).
  { unfold n1 in *. clear n1. rewrite Ec in *.
    destruct (split_ok C T tg rl rl1 rl2 kl kl1 klm c (nnodes (plug c (ND a p true b (S (mx C)) ok (ks ++ [nw])))) 0 a p true b ok
       (ks ++ [nw]) (S x) b) as (s' & R & (H' & Q1 & Q2 & Q3 & Q4 & Q5 & Q6 & Q7)); auto;
      [apply nnodes_plug|rewrite app_length; cbn [length]; lia|].
    exists s'. split; [exact R|]. exists H'. split; [|rewrite Q5; exact Ee].
    destruct Q7 as [(Qc & Q7 & Q8 & Q9 & Q10)|(Q7 & Q8 & Q9 & Q10)].
    - split; [constructor; [exact Q1|constructor; auto]|]. split; [congruence|]. split; [lia|].
      split; [congruence|]. intros E. split; [lia|]. split; [congruence|]. rewrite Rt3 in Q10 by exact Qc. lia.
    - destruct (nok (root s)) eqn:E0.
      + exfalso. specialize (Hroom eq_refl). destruct c as [|f0 c0]; [|rewrite Rt3 in Q10 by discriminate; lia].
        rewrite Et in Hroom. unfold n0 in Hroom. cbn [plug ncnt] in Hroom. lia.
      + split; [constructor; [exact Q1|constructor; auto; apply Q9; congruence]|]. split; [congruence|]. split; [lia|].
        rewrite E0. split; [auto|]. discriminate. }
  assert (Fin : ins_post m f (S h) s [(bb, v)] rd
    (let* s' := split_node C (nnodes (plug c n1)) (ST (plug c n1) (S x)) a in Ok (s', rd))).
  { destruct Spl as (s' & -> & H' & G & P). cbn [bind]. exists s', rd, H'. auto. }
  destruct rd as [ds|]; [|right; exact Fin].
  destruct (forced C && negb (existsb (Nat.eqb h) ds)) eqn:Ef; [|right; exact Fin]. clear Fin Spl.
  apply andb_prop in Ef. destruct Ef as [_ Ef]. apply negb_true_iff in Ef.
  assert (Hnin : ~ In h ds).
  { intros I. apply not_true_iff_false in Ef. apply Ef. apply existsb_exists. exists h. split; [auto|apply Nat.eqb_refl]. }
  destruct Hrd as (Rd1 & Rd2 & Rd3).
  destruct f as [|f].
  { exfalso. assert (Hl : length (h :: ds) <= length (seq 0 (S (maxdepth C)))).
    { apply NoDup_incl_length; [constructor; auto|]. intros z [<-|Hz]; apply in_seq; [lia|].
      rewrite Forall_forall in Rd2. specialize (Rd2 z Hz). lia. }
    rewrite seq_length in Hl. cbn [length] in Hl. lia. }
  specialize (IH f eq_refl). cbn [nkids n1]. fold n1.
  set (ks1 := ks ++ [nw]) in *.
  assert (Len1 : length ks1 = S (mx C)) by (unfold ks1; rewrite app_length; cbn [length]; lia).
  set (ps := firstn (reins C) (by_distance C b ks1)).
  pose proof (by_distance_perm C T b ks1) as Pb.
  pose proof (t_reins C T) as Tr. pose proof (t_reins_max C T) as Trm. pose proof (t_min C T) as Tm.
  assert (Lps : length ps = reins C).
  { unfold ps. rewrite firstn_length, (Permutation_length Pb), seq_length. lia. }
  assert (Pps : NoDup ps /\ Forall (fun q => q < length ks1) ps).
  { pose proof (Permutation_NoDup (Permutation_sym Pb) (seq_NoDup _ _)) as Nd.
    rewrite <- (firstn_skipn (reins C) (by_distance C b ks1)) in Nd.
    assert (Ndp : forall l1 l2 : list nat, NoDup (l1 ++ l2) -> NoDup l1).
    { clear. induction l1 as [|z l1 IHz]; intros l2 Hn; [constructor|]. inversion Hn; subst.
      constructor; [|eauto]. intros Hi. apply H1. apply in_or_app. now left. }
    apply Ndp in Nd.
    split; [exact Nd|]. apply Forall_forall. intros q Hq. unfold ps in Hq.
    assert (Iq : In q (by_distance C b ks1)) by (rewrite <- (firstn_skipn (reins C)); apply in_or_app; now left).
    apply (Permutation_in _ Pb), in_seq in Iq. lia. }
  destruct Pps as [Nps Bps]. destruct (positions_perm ps ks1 Nps Bps) as [Pk Lout].
  set (out := at_positions ps ks1) in *. set (rest0 := not_at 0 ps ks1) in *.
  assert (Lrest0 : length rest0 = S (mx C) - reins C).
  { apply Permutation_length in Pk. rewrite app_length in Pk. lia. }
  assert (Lle : length rest0 <= length (map na ks1)) by (rewrite map_length; lia).
  set (rest := reslot (map na ks1) rest0).
  assert (Lrest : length rest = S (mx C) - reins C) by (unfold rest; rewrite reslot_length; auto).
  assert (Ecore : map core rest = map core rest0) by (apply core_reslot; exact Lle).
  assert (Hall : Forall (kid 0) (out ++ rest0)) by (eapply Permutation_Forall; [symmetry; exact Pk|exact Hks1]).
  assert (Hpar : Forall (fun k => npar k = Some a) (out ++ rest0))
    by (eapply Permutation_Forall; [symmetry; exact Pk|exact Hpa1]).
  apply Forall_app in Hall. destruct Hall as [Hout Hrest0]. apply Forall_app in Hpar. destruct Hpar as [_ Hpar0].
  assert (Hrest : Forall (kid 0) rest).
  { eapply core_forall; [intros; apply shape_core|rewrite Ecore; reflexivity|exact Hrest0]. }
  assert (Hpar : Forall (fun k => npar k = Some a) rest).
  { eapply (core_forall (fun k => npar k = Some a)); [|rewrite Ecore; reflexivity|exact Hpar0].
    intros []; reflexivity. }
  unfold pack. cbn [nkids nbox set_box].
  set (nb := hull (dims C) (map nbox rest)).
  set (n2 := ND a p true nb (S cnt - reins C) ok rest).
  rewrite (upd_plug c n1 n2 N1 : upd a _ _ = _).
  assert (N2 : NoDup (addrs (plug c n2)) /\ Forall (fun z => z < S x + 0) (addrs (plug c n2))).
  { apply (fresh_addrs (addrs (plug c n1)) (addrs (plug c n2)) (skipn (length rest0) (map na ks1)));
      [exact N1|exact B1| |cbn [seq]; rewrite app_nil_r; reflexivity].
    rewrite !addrs_plug. unfold n1, n2. cbn [addrs]. rewrite !flat_addrs, !kaddrs0 by auto.
    unfold rest. rewrite na_reslot by exact Lle. rewrite !app_nil_r.
    rewrite <- (firstn_skipn (length rest0) (map na ks1)) at 1. perm. }
  destruct N2 as [N2 B2]. rewrite Nat.add_0_r in B2.
  assert (Fnb : fit (dims C) tg nb (map nbox rest)) by (apply fit_hull; eapply shape_boxes; eauto).
  assert (Ec2 : exists c', (if negb (box_eqb nb b) then pack_upward C (nnodes (plug c n2)) (plug c n2) p else Ok (plug c n2)) =
       Ok (plug c' n2) /\ cshape 1 nb c' /\ csame c c').
  { destruct (negb (box_eqb nb b)) eqn:E.
    - rewrite Hp. apply (pack_upward_ok C tg rl rl1 rl2 kl kl1 klm c 1 n2 b); auto; [apply Fnb|].
      pose proof (nnodes_plug c n2). lia.
    - apply negb_false_iff, box_eqb_eq in E. exists c. split; [auto|]. rewrite E. split; [auto|apply csame_refl]. }
  destruct Ec2 as (c' & -> & Cs & Sm). cbn [bind].
  destruct (csame_facts _ _ Sm) as (G1 & G2 & G3 & G4 & G5).
  set (s1 := ST (plug c' n2) (S x)).
  assert (Si1 : sinv (S h) s1).
  { constructor; cbn [root nxt s1].
    - replace (S h) with (1 + length c') by lia. apply shape_plug; auto.
      cbn [n2 RtShape.shape]. split; [reflexivity|]. split; [lia|]. split; [|split; auto].
      unfold lowc, rootlo. destruct c'; cbn [Nat.eqb]; lia.
    - destruct (lk_plug c' n2) as [K1 K2]; auto; [cbn [n2 npar]; congruence|apply lk_dir; now apply lk0|].
      constructor; auto.
      + eapply Permutation_NoDup; [apply (addrs_csame c c'), Sm|exact N2].
      + eapply Permutation_Forall; [apply (addrs_csame c c'), Sm|exact B2]. }
  assert (Ee1 : Permutation (flat_map entries out ++ entries (root s1)) ((bb, v) :: entries (root s))).
  { rewrite <- Ee. cbn [root s1]. rewrite !entries_plug, <- G3. cbn [n1 n2 entries].
    assert (Q : Permutation (flat_map entries ks1) (flat_map entries out ++ flat_map entries rest)).
    { rewrite <- Pk, flat_map_app. apply Permutation_app_head.
      apply core_flat; [apply core_entries|rewrite Ecore; reflexivity]. }
    rewrite Q. perm. }
  assert (Lout' : length (flat_map entries out) = reins C).
  { rewrite <- Lps, <- Lout. clear - Hout. induction out as [|k l IHl]; [reflexivity|].
    apply Forall_cons_iff in Hout. destruct Hout as [Hk Hl]. destruct k; [|contradiction].
    cbn [flat_map entries length app]. now rewrite IHl. }
  assert (Rt' : na (root s1) = na (root s) /\ nok (root s1) = nok (root s) /\
    (nok (root s) = true -> ncnt (root s1) = ncnt (root s))).
  { cbn [root s1]. destruct (csame_root c c' n2 Sm) as (R1 & R2 & R3). rewrite <- R1, <- R2, <- R3.
    destruct c as [|f0 c0].
    - rewrite Et. cbn [plug n2 n0 na nok]. repeat split; auto. intros E. exfalso.
      rewrite Et in Hroom. cbn [plug n0 ncnt nok] in Hroom. specialize (Hroom E). lia.
    - rewrite Et. destruct (plug_root (f0 :: c0) n2 n0) as (W1 & W2 & W3); [discriminate|]. rewrite W1, W2, W3. auto. }
  destruct Rt' as (Rs1 & Rs2 & Rs3).
  assert (Hmr : m = reins C).
  { destruct Hm as [->|[_ Hi]]; [reflexivity|]. cbn [rd_in] in Hi. replace (S h - 1) with h in Hi by lia. contradiction. }
  assert (Hrd1 : rd_ok f (Some (h :: ds))).
  { cbn [rd_ok length]. split; [constructor; auto|]. split; [constructor; auto; lia|]. lia. }
  destruct (go_ok f IH out s1 (Some (h :: ds)) (S h) N Si1 Hout Hrd1) as [[-> Hb]|(s2 & rd2 & H2 & -> & Gr & P2 & R2 & I2)].
  - cbn [rd_in]. left. lia.
  - apply Permutation_length in Ee1. rewrite app_length in Ee1. cbn [length] in Ee1. rewrite Et in Ee1. lia.
  - intros E. rewrite Rs3 by congruence. rewrite Lout, Lps, <- Hmr. apply Hroom. congruence.
  - left. auto.
  - right. exists s2, rd2, H2. split; [reflexivity|].
    destruct Gr as (A1 & A2 & A3 & A4 & A5). split; [|split; [rewrite P2; exact Ee1|split]].
    + split; [exact A1|]. split; [congruence|]. split; [lia|]. split; [intros; apply A4; congruence|].
      intros E. destruct A5 as (E1 & E2 & E3); [congruence|]. split; [auto|]. split; [auto|].
      rewrite Rs3 in E3 by auto. rewrite Lout, Lps, <- Hmr in E3. exact E3.
    + destruct rd2 as [ds2|]; [|exact I]. destruct R2 as (R2 & R3 & R4). split; [auto|]. split; [auto|lia].
    + intros d Hd'. apply I2. cbn [rd_in] in *. right. exact Hd'.
Qed.

Lemma insert_ns_ok f : ins_spec f.
Proof. induction f as [|f IH]; apply insert_ns_step; intros f' E; [discriminate|]. injection E as <-. exact IH. Qed.

(** Insertion of one value *)
Lemma insert_ok s bb v H : sinv H s -> length bb = dims C ->
  (nok (root s) = true -> ncnt (root s) + reins C <= mx C) ->
  (insert C bb v s = Throw E_general /\ ~ bounded (length (entries (root s)))) \/
  exists s' H', insert C bb v s = Ok s' /\ grow (reins C) H s H' s' /\
    Permutation (entries (root s')) ((bb, v) :: entries (root s)).
Proof.
  intros Si Hb Hr. unfold insert.
  destruct (insert_ns_ok (S (S (maxdepth C))) s bb v (Some []) H (length (entries (root s))) (reins C) Si Hb)
    as [[-> B]|(s' & rd' & H' & -> & G & P & _)]; auto.
  - cbn [rd_ok length]. split; [constructor|]. split; [constructor|lia].
  - right. exists s', H'. cbn [bind]. auto.
Qed.

(** The number of entries bounds the height *)
Lemma entries_low h n lo hi : shape h lo hi n -> 2 <= kl -> 1 <= h -> lo * 2 ^ (h - 1) <= length (entries n).
Proof.
  intros Hs Hm. revert n lo hi Hs. induction h as [|h IH]; intros n lo hi Hs Hh; [lia|].
  destruct n as [|a p lf b c ok ks]; [contradiction|]. cbn [RtShape.shape] in Hs.
  destruct Hs as (_ & _ & Hl & _ & Hk). cbn [entries]. replace (S h - 1) with h by lia.
  destruct h as [|h].
  - cbn [Nat.pow]. rewrite Nat.mul_1_r. etransitivity; [apply Hl|]. clear Hl.
    induction ks as [|k ks IHk]; [reflexivity|]. apply Forall_cons_iff in Hk. destruct Hk as [Hk0 Hk].
    destruct k; [|contradiction]. cbn [flat_map entries length app]. apply le_n_S. auto.
  - assert (G : length ks * 2 ^ S h <= length (flat_map entries ks)).
    { clear Hl. induction ks as [|k ks IHk]; [reflexivity|]. apply Forall_cons_iff in Hk. destruct Hk as [Hk0 Hk].
      cbn [flat_map length]. rewrite app_length. specialize (IHk Hk). apply IH in Hk0; [|lia].
      replace (S h - 1) with h in Hk0 by lia. cbn [Nat.pow] in *. nia. }
    nia.
Qed.

Lemma bounded_pow N : rl = 2 -> 2 <= kl -> N < 2 ^ S (S (maxdepth C)) -> bounded N.
Proof.
  intros Er Hm HN H t [Hh Hs] HL. apply entries_low in Hs; [|auto|auto].
  destruct (le_lt_dec H (S (maxdepth C))) as [|Hgt]; [auto|exfalso].
  unfold rootlo in Hs. destruct (Nat.eqb_spec H 1); [lia|]. rewrite Er in Hs.
  pose proof (Nat.pow_le_mono_r 2 (S (S (maxdepth C))) H ltac:(lia) ltac:(lia)) as Hp.
  assert (Ep : 2 * 2 ^ (H - 1) = 2 ^ H) by (destruct H as [|H']; [lia|]; replace (S H' - 1) with H' by lia; reflexivity).
  lia.
Qed.

Lemma init_sinv s : s = init C -> sinv 1 s /\ nok (root s) = false /\ entries (root s) = [] /\ ncnt (root s) = 0.
Proof.
  intros ->. unfold init. cbn [root nxt create_dir]. split; [|repeat split; reflexivity].
  constructor; cbn [root nxt].
  - split; [lia|]. cbn [RtShape.shape create_dir map length rootlo Nat.eqb]. split; [reflexivity|]. split; [reflexivity|].
    split; [lia|]. split; [|constructor]. split; [apply repeat_length|]. destruct tg; [reflexivity|constructor].
  - constructor; cbn [npar addrs flat_map]; [reflexivity|exact I|constructor; [intros []|constructor]|].
    constructor; [lia|constructor].
Qed.

End I.
