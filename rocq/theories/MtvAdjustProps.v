(** C49: all variants of adjust_block_positions do the same. *)

From Coq Require Import List ZArith Lia Bool Permutation.
From Verif Require Import Base MtvAdjust.
Import ListNotations.

(** ** Specification: everything from an index on is changed, nothing before it *)
Definition from_on {A} (add : A -> A) (start : nat) (ps : list A) : list A :=
  firstn start ps ++ map add (skipn start ps).

Section P.
Context {A : Type}.
Variable add : A -> A.

(** Changes at a list of indexes, one after another *)
Fixpoint touch (is_ : list nat) (ps : list A) : res (list A) :=
  match is_ with [] => Ok ps | i :: r => let* ps := add_at add i ps in touch r ps end.

Lemma touch_app l1 : forall l2 ps, touch (l1 ++ l2) ps = bind (touch l1 ps) (touch l2).
Proof.
  induction l1 as [|i l1 IH]; intros l2 ps; cbn [app touch bind]; [reflexivity|].
  destruct (add_at add i ps); cbn [bind]; auto.
Qed.

Lemma touch_mid m : forall l1 l2, touch (seq (length l1) (length m)) (l1 ++ m ++ l2) = Ok (l1 ++ map add m ++ l2).
Proof.
  induction m as [|x m IH]; intros l1 l2; [reflexivity|]. cbn [length seq touch app]. unfold add_at.
  rewrite nth_error_app2, Nat.sub_diag by lia. cbn [nth_error deref bind]. rewrite set_nth_app.
  specialize (IH (l1 ++ [add x]) l2). rewrite app_length in IH. cbn [length] in IH. rewrite Nat.add_1_r in IH.
  rewrite <- !app_assoc in IH. exact IH.
Qed.

Lemma touch_seq i w ps : i + w <= length ps ->
  touch (seq i w) ps = Ok (firstn i ps ++ map add (firstn w (skipn i ps)) ++ skipn (i + w) ps).
Proof.
  intros H. assert (E : ps = firstn i ps ++ firstn w (skipn i ps) ++ skipn (i + w) ps).
  { rewrite <- (firstn_skipn i ps) at 1. f_equal. rewrite <- (firstn_skipn w (skipn i ps)) at 1. f_equal.
    clear. revert ps. induction i as [|i IH]; intros ps; [reflexivity|]. destruct ps; [now rewrite !skipn_nil|]. apply IH. }
  pose proof (touch_mid (firstn w (skipn i ps)) (firstn i ps) (skipn (i + w) ps)) as G. rewrite <- E in G.
  rewrite !firstn_length, skipn_length in G. rewrite !Nat.min_l in G by lia. exact G.
Qed.

(** The indexes a statement, a body, a loop touches *)
Definition idx_stmt (i : nat) (c : stmt) : list nat :=
  match snd c with None => [i + fst c] | Some w => seq (i + fst c) w end.
Definition idx_body (cs : list stmt) (i : nat) : list nat := flat_map (idx_stmt i) cs.
Definition wide (c : stmt) : Prop := match snd c with None => True | Some w => 1 <= w end.

Lemma touch_length is_ : forall ps ps', touch is_ ps = Ok ps' -> length ps' = length ps.
Proof.
  induction is_ as [|i r IH]; intros ps ps' H; cbn [touch] in H; [congruence|]. unfold add_at in H.
  destruct (nth_error ps i); cbn [deref bind] in H; [|discriminate]. apply IH in H. now rewrite set_nth_length in H.
Qed.

Lemma run_stmt_touch i c ps : wide c -> (forall j, In j (idx_stmt i c) -> j < length ps) -> run_stmt add i c ps = touch (idx_stmt i c) ps.
Proof.
  intros W H. unfold run_stmt, idx_stmt, wide in *. destruct (snd c) as [w|].
  - assert (L : i + fst c + w <= length ps).
    { specialize (H (i + fst c + w - 1)). rewrite in_seq in H. lia. }
    rewrite touch_seq by exact L. unfold add_lanes. destruct (Nat.leb_spec (i + fst c + w) (length ps)); [reflexivity|lia].
  - cbn [touch]. destruct (add_at add (i + fst c) ps); reflexivity.
Qed.

Lemma run_body_touch i cs : forall ps, Forall wide cs -> (forall j, In j (idx_body cs i) -> j < length ps) ->
  run_body add i cs ps = touch (idx_body cs i) ps.
Proof.
  induction cs as [|c cs IH]; intros ps W H; [reflexivity|]. apply Forall_cons_iff in W. destruct W as [W1 W2].
  unfold idx_body in *. cbn [run_body flat_map] in *. rewrite touch_app.
  rewrite run_stmt_touch; [|exact W1|intros j Hj; apply H, in_or_app; now left].
  destruct (touch (idx_stmt i c) ps) as [ps'| |] eqn:E; cbn [bind]; [|reflexivity|reflexivity]. apply IH; [exact W2|].
  intros j Hj. rewrite (touch_length _ _ _ E). apply H, in_or_app. now right.
Qed.

Lemma run_iters_touch cs is_ : forall ps, Forall wide cs -> (forall j, In j (flat_map (idx_body cs) is_) -> j < length ps) ->
  run_iters add is_ cs ps = touch (flat_map (idx_body cs) is_) ps.
Proof.
  induction is_ as [|i r IH]; intros ps W H; [reflexivity|]. cbn [run_iters flat_map] in *. rewrite touch_app.
  rewrite run_body_touch; [|exact W|intros j Hj; apply H, in_or_app; now left].
  destruct (touch (idx_body cs i) ps) as [ps'| |] eqn:E; cbn [bind]; [|reflexivity|reflexivity]. apply IH; [exact W|].
  intros j Hj. rewrite (touch_length _ _ _ E). apply H, in_or_app. now right.
Qed.

Lemma nth_error_set_nth_ne (ps : list A) : forall i j x, i <> j -> nth_error (set_nth i x ps) j = nth_error ps j.
Proof.
  induction ps as [|z ps IH]; intros [|i] [|j] x N; cbn [set_nth nth_error]; try reflexivity; try congruence. apply IH. congruence.
Qed.

(** The order does not matter *)
Lemma add_at_swap i j ps : i <> j -> bind (add_at add i ps) (add_at add j) = bind (add_at add j ps) (add_at add i).
Proof.
  intros N. unfold add_at. destruct (nth_error ps i) as [x|] eqn:E1; destruct (nth_error ps j) as [y|] eqn:E2; cbn [deref bind];
    rewrite ?nth_error_set_nth_ne by congruence; rewrite ?E1, ?E2; cbn [deref bind]; try reflexivity.
  f_equal. clear - N. revert i j N. induction ps as [|z ps IH]; intros [|i] [|j] N; cbn [set_nth]; try reflexivity; try congruence.
  f_equal. apply IH. congruence.
Qed.

Lemma touch_perm l l' : Permutation l l' -> NoDup l -> forall ps, touch l ps = touch l' ps.
Proof.
  induction 1 as [|i l l' P IH|i j l|l1 l2 l3 P1 IH1 P2 IH2]; intros N ps.
  - reflexivity.
  - apply NoDup_cons_iff in N. destruct N as [_ N]. cbn [touch]. destruct (add_at add i ps); cbn [bind]; auto.
  - apply NoDup_cons_iff in N. destruct N as [N _]. cbn [touch].
    assert (E : i <> j) by (intros ->; apply N; now left). pose proof (add_at_swap j i ps (not_eq_sym E)) as S.
    destruct (add_at add i ps), (add_at add j ps); cbn [bind] in *; try congruence; (now rewrite S) || (now rewrite <- S).
  - rewrite IH1 by exact N. apply IH2. eapply Permutation_NoDup; eauto.
Qed.

(** The iterations cover the section *)
Lemma iters_all step cs : (forall i, Permutation (idx_body cs i) (seq i step)) -> forall k fuel a,
  1 <= step -> k <= fuel -> Permutation (flat_map (idx_body cs) (iters fuel a (a + k * step) step)) (seq a (k * step)).
Proof.
  intros Hb. induction k as [|k IH]; intros fuel a Hs Hf.
  - destruct fuel; cbn [iters]; [reflexivity|]. destruct (Nat.ltb_spec a (a + 0 * step)); [lia|]. reflexivity.
  - destruct fuel as [|fuel]; [lia|]. cbn [iters]. destruct (Nat.ltb_spec a (a + S k * step)); [|cbn in *; lia].
    cbn [flat_map]. replace (a + S k * step) with (a + step + k * step) by (cbn; lia).
    replace (S k * step) with (step + k * step) by reflexivity. rewrite seq_app. apply Permutation_app; [apply Hb|apply IH; lia].
Qed.
Lemma iters_end fuel a b step : b <= a -> iters fuel a b step = [].
Proof. intros H. destruct fuel; [reflexivity|]. cbn [iters]. destruct (Nat.ltb_spec a b); [lia|reflexivity]. Qed.

Lemma shape_ok f : exists k mask step body, shape f = (mask, step, body) /\ mask = Nat.ones k /\ step = 2 ^ k /\
  Forall wide body /\ forall i, idx_body body i = seq i step.
Proof.
  assert (H : exists k mask step body, shape f = (mask, step, body) /\ mask = Nat.ones k /\ step = 2 ^ k /\ Forall wide body /\
     idx_body body 0 = seq 0 step).
  { destruct f; [exists 0|exists 2|exists 3|exists 4|exists 5|exists 1|exists 3|exists 4|exists 5|exists 2|exists 4|exists 5];
      (do 3 eexists; split; [reflexivity|]; split; [reflexivity|]; split; [reflexivity|]; split; [repeat constructor|reflexivity]). }
  destruct H as (k & mask & step & body & E1 & E2 & E3 & E4 & E5). exists k, mask, step, body. repeat split; auto.
  intros i. assert (G : idx_body body i = map (Nat.add i) (idx_body body 0)).
  { unfold idx_body. clear. induction body as [|c cs IH]; [reflexivity|]. cbn [flat_map]. rewrite map_app, <- IH. f_equal.
    unfold idx_stmt. destruct (snd c); [|reflexivity]. cbn [Nat.add].
    generalize (fst c). clear. intros o. revert o. induction n as [|w IH]; intros o; [reflexivity|]. cbn [seq map]. f_equal.
    rewrite <- Nat.add_succ_r. apply IH. }
  rewrite G, E5. clear. assert (Q : forall w o, map (Nat.add i) (seq o w) = seq (i + o) w).
  { induction w as [|w IH]; intros o; [reflexivity|]. cbn [seq map]. f_equal. rewrite IH. f_equal. lia. }
  rewrite Q. f_equal. lia.
Qed.

Lemma adjust_from f ord start ps : (forall l, Permutation (ord l) l) -> adjust add f ord start ps = Ok (from_on add start ps).
Proof.
  intros Ho. unfold adjust. destruct (Nat.leb_spec (length ps) start) as [Hge|Hlt].
  - unfold from_on. rewrite firstn_all2, skipn_all2 by lia. cbn [map]. now rewrite app_nil_r.
  - destruct (shape_ok f) as (k & mask & step & body & E1 & E2 & E3 & E4 & E5). rewrite E1.
    set (n := length ps) in *. set (rem := Nat.land (n - start) mask). set (q := (n - start) / step).
    assert (S1 : 1 <= step) by (subst step; clear; induction k; cbn [Nat.pow]; lia).
    assert (Er : rem = (n - start) mod step) by (unfold rem; subst mask step; apply Nat.land_ones).
    pose proof (Nat.div_mod (n - start) step ltac:(lia)) as Dm. fold q in Dm. rewrite <- Er in Dm.
    pose proof (Nat.mod_upper_bound (n - start) step ltac:(lia)) as Mu. rewrite <- Er in Mu.
    assert (El : n - start - rem + start = start + q * step) by lia. rewrite El.
    set (is_ := iters n start (start + q * step) step).
    assert (P1 : Permutation (flat_map (idx_body body) (ord is_)) (seq start (q * step))).
    { rewrite (Permutation_flat_map (idx_body body) (Ho is_)). apply iters_all; [intros i; now rewrite E5|exact S1|nia]. }
    assert (P2 : flat_map (idx_body (plain [0])) (iters n (start + q * step) (rem + (start + q * step)) 1) = seq (start + q * step) rem).
    { assert (G : forall fuel a r, r <= fuel -> flat_map (idx_body (plain [0])) (iters fuel a (r + a) 1) = seq a r).
      { clear. induction fuel as [|fuel IH]; intros a r H; [destruct r; [reflexivity|lia]|]. cbn [iters].
        destruct r as [|r]; [now rewrite (proj2 (Nat.ltb_ge _ _)) by lia|]. rewrite (proj2 (Nat.ltb_lt _ _)) by lia.
        cbn [flat_map seq idx_body plain map idx_stmt fst snd app]. rewrite Nat.add_0_r. f_equal.
        replace (S r + a) with (r + (a + 1)) by lia. rewrite IH by lia. f_equal. lia. }
      apply G. lia. }
    rewrite run_iters_touch.
    + destruct (touch (flat_map (idx_body body) (ord is_)) ps) as [ps'| |] eqn:Et; cbn [bind].
      * rewrite run_iters_touch.
        -- pose proof (touch_app (flat_map (idx_body body) (ord is_)) (seq (start + q * step) rem) ps) as Ta. rewrite Et in Ta. cbn [bind] in Ta.
           rewrite P2, <- Ta. rewrite (touch_perm _ (seq start (n - start))).
           ++ rewrite touch_seq by (subst n; lia). unfold from_on. f_equal. f_equal.
              rewrite firstn_all2 by (rewrite skipn_length; subst n; lia). rewrite (skipn_all2 (n := start + (n - start))) by (subst n; lia).
              now rewrite app_nil_r.
           ++ rewrite P1. replace (n - start) with (q * step + rem) by lia. now rewrite seq_app.
           ++ eapply Permutation_NoDup; [|apply (seq_NoDup (n - start) start)]. rewrite P1. replace (n - start) with (q * step + rem) by lia. now rewrite seq_app.
        -- repeat constructor.
        -- intros j Hj. rewrite P2 in Hj. apply in_seq in Hj. rewrite (touch_length _ _ _ Et). fold n. lia.
      * exfalso. rewrite (touch_perm _ _ P1) in Et; [rewrite touch_seq in Et by (fold n; lia); discriminate|].
        eapply Permutation_NoDup; [symmetry; exact P1|apply seq_NoDup].
      * exfalso. rewrite (touch_perm _ _ P1) in Et; [rewrite touch_seq in Et by (fold n; lia); discriminate|].
        eapply Permutation_NoDup; [symmetry; exact P1|apply seq_NoDup].
    + exact E4.
    + intros j Hj. apply (Permutation_in _ P1) in Hj. apply in_seq in Hj. fold n. lia.
Qed.
End P.

(** ** C49 *)
(** Every variant, whatever the order in which its parallel loop runs, changes the positions from
    the start index on and nothing else *)
Theorem C49_adjust_soa : forall (f : lu) ord start delta ps, (forall l, Permutation (ord l) l) ->
  adjust (add64 delta) f ord start ps = Ok (from_on (add64 delta) start ps).
Proof. intros f ord start delta ps. exact (adjust_from (add64 delta) f ord start ps). Qed.

Theorem C49_adjust_aos : forall (B : Type) (f : lu) ord start delta (bs : list (Z * B)), (forall l, Permutation (ord l) l) ->
  adjust (add64_blk delta) f ord start bs = Ok (from_on (add64_blk delta) start bs).
Proof. intros B f ord start delta bs. exact (adjust_from (add64_blk delta) f ord start bs). Qed.

(** So all variants agree with the simple loop *)
Theorem C49_variants_agree : forall (f g : lu) ord start delta ps, (forall l, Permutation (ord l) l) ->
  adjust (add64 delta) f ord start ps = adjust (add64 delta) g (fun l => l) start ps.
Proof. intros f g ord start delta ps H. rewrite !C49_adjust_soa; auto. Qed.

(** Element by element *)
Theorem C49_elements : forall (f : lu) ord start delta ps ps', (forall l, Permutation (ord l) l) ->
  adjust (add64 delta) f ord start ps = Ok ps' -> length ps' = length ps /\
  forall i p, nth_error ps i = Some p -> nth_error ps' i = Some (if Nat.ltb i start then p else ((p + delta) mod 2 ^ 64)%Z).
Proof.
  intros f ord start delta ps ps' H E. rewrite C49_adjust_soa in E by exact H. injection E as <-. unfold from_on. split.
  - rewrite app_length, map_length, <- app_length, firstn_skipn. reflexivity.
  - intros i p Hp. destruct (Nat.ltb_spec i start) as [Hi|Hi].
    + rewrite nth_error_app1 by (rewrite firstn_length; apply Nat.min_glb_lt; [exact Hi|apply nth_error_Some; congruence]).
      revert start ps Hi Hp. clear. induction i as [|i IH]; intros [|start] [|x ps] Hi Hp; try lia; try discriminate; [exact Hp|].
      cbn [firstn nth_error] in *. apply IH; [lia|exact Hp].
    + assert (L : length (firstn start ps) = start) by (apply firstn_length_le; assert (i < length ps) by (apply nth_error_Some; congruence); lia).
      rewrite nth_error_app2 by (rewrite L; exact Hi). rewrite L, nth_error_map.
      assert (Es : nth_error (skipn start ps) (i - start) = Some p).
      { rewrite <- Hp. rewrite <- (firstn_skipn start ps) at 2. rewrite nth_error_app2 by (rewrite L; exact Hi). now rewrite L. }
      rewrite Es. reflexivity.
Qed.

Example C49_ex :
  adjust (add64 (-3)) AVX2_4 (@rev nat) 2 (map Z.of_nat (seq 0 40)) =
    Ok (map Z.of_nat (seq 0 2) ++ [(2 ^ 64 - 1)%Z] ++ map Z.of_nat (seq 0 37)) /\
  adjust (add64 5) SSE2 (fun l => l) 1 [1; 2; 3; 4]%Z = Ok [1; 7; 8; 9]%Z /\
  (forall l : list nat, Permutation (rev l) l).
Proof. split; [vm_compute; reflexivity|]. split; [vm_compute; reflexivity|]. intros l. symmetry. apply Permutation_rev. Qed.

(** ** The positions of MtvModel.v *)
From Verif Require Import MtvModel.

Theorem C49_adj_up : forall (V : Type) i d (s s' : @st V), adj_up i d s = Ok s' ->
  Forall (fun b => (Z.of_nat (bp b + d) < 2 ^ 64)%Z) (skipn i (bl s)) ->
  map (fun b => Z.of_nat (bp b)) (bl s') = from_on (add64 (Z.of_nat d)) i (map (fun b => Z.of_nat (bp b)) (bl s)).
Proof.
  intros V i d s s' E F. injection E as <-. cbn [bl with_bl]. unfold from_on, shift_up.
  rewrite map_app, firstn_map, skipn_map, !map_map. f_equal. apply map_ext_in. intros b Hb. rewrite Forall_forall in F. specialize (F b Hb).
  cbn [bp]. unfold add64. rewrite Z.mod_small by lia. lia.
Qed.

Theorem C49_adj_dn : forall (V : Type) i d (s s' : @st V), adj_dn i d s = Ok s' ->
  Forall (fun b => (Z.of_nat (bp b) < 2 ^ 64)%Z) (skipn i (bl s)) ->
  map (fun b => Z.of_nat (bp b)) (bl s') = from_on (add64 (- Z.of_nat d)) i (map (fun b => Z.of_nat (bp b)) (bl s)).
Proof.
  intros V i d s s' E F. unfold adj_dn in E. destruct (forallb _ _) eqn:Ef; [|discriminate]. injection E as <-. cbn [bl with_bl]. unfold from_on, shift_dn.
  rewrite map_app, firstn_map, skipn_map, !map_map. f_equal. apply map_ext_in. intros b Hb. rewrite Forall_forall in F. specialize (F b Hb).
  rewrite forallb_forall in Ef. specialize (Ef b Hb). apply Nat.leb_le in Ef.
  cbn [bp]. unfold add64. rewrite Z.mod_small by lia. lia.
Qed.

Definition ex_adj : @st nat := ST [BK 0 2 None; BK 2 3 None; BK 5 1 None] 6 0 0 [] [] [].
Example C49_adj_ex :
  (exists s', adj_up 1 4 ex_adj = Ok s' /\ map bp (bl s') = [0; 6; 9]) /\
  (exists s', adj_dn 1 2 ex_adj = Ok s' /\ map bp (bl s') = [0; 0; 3]) /\
  Forall (fun b => (Z.of_nat (bp b + 4) < 2 ^ 64)%Z) (skipn 1 (bl ex_adj)).
Proof.
  split; [eexists; split; vm_compute; reflexivity|]. split; [eexists; split; vm_compute; reflexivity|].
  repeat constructor; vm_compute; reflexivity.
Qed.

(** One query for all the theorems of this file. *)
Definition MtvAdjustProps_theorems :=
  (@C49_adjust_soa, @C49_adjust_aos, @C49_variants_agree, @C49_elements,
   @C49_adj_up, @C49_adj_dn).
Print Assumptions MtvAdjustProps_theorems.
