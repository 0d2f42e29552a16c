(** C85 to C87: points and extents, search results and assignment through them, in rtree. *)

From Coq Require Import List ZArith Lia Bool Permutation.
From Verif Require Import Base RtModel RtSpec RtSpec2 RtBox RtPerm RtTree RtShape RtSplit RtInsert RtSearch RtObs RtErase RtErase2 RtBulk RtWrite RtObs2 RtIter RtProps RtProps2.
Import ListNotations.
Open Scope nat_scope.

(** ** C85 *)
Lemma point_from_app vs : forall dst, length vs <= length dst -> point_from dst vs = Some (map Some vs ++ skipn (length vs) dst).
Proof.
  induction vs as [|v vs IH]; intros [|d dst] H; cbn [length] in H; try lia; [reflexivity|reflexivity|].
  cbn [point_from map app length skipn]. rewrite IH by lia. reflexivity.
Qed.
Lemma point_from_long vs : forall dst, length dst < length vs -> point_from dst vs = None.
Proof.
  induction vs as [|v vs IH]; intros [|d dst] H; cbn [length] in H; try lia; [reflexivity|].
  cbn [point_from]. rewrite IH by lia. reflexivity.
Qed.
Lemma read_some vs : read_point (map Some vs) = Ok vs.
Proof. induction vs as [|v vs IH]; [reflexivity|]. cbn [map read_point]. now rewrite IH. Qed.
Lemma read_none vs k : read_point (map Some vs ++ repeat None (S k)) = Undef.
Proof. induction vs as [|v vs IH]; [reflexivity|]. cbn [map app read_point]. now rewrite IH. Qed.
Lemma point_eqb_eq a : forall b, length a = length b -> (point_eqb a b = true <-> a = b).
Proof.
  induction a as [|x a IH]; intros [|y b] H; cbn [length] in H; try lia; [split; reflexivity|]. cbn [point_eqb].
  destruct (Z.eqb_spec x y) as [->|N]; cbn [negb]; [rewrite IH by lia|]; split; congruence.
Qed.

(** In full: a point constructed from up to as many values as there are dimensions has those
    coordinates, and default ones after them; from more values the constructor throws.  The
    default coordinates are missing: see C85_points_refuted. *)
Theorem C85_points_partial : forall dims (vs : list Z),
  (length vs = dims -> exists p, point_of dims vs = Some p /\ read_point p = Ok vs) /\
  (dims < length vs -> point_of dims vs = None) /\
  read_point (point0 dims) = Ok (repeat 0%Z dims).
Proof.
  intros dims vs. split; [|split].
  - intros <-. exists (map Some vs). split; [|apply read_some]. unfold point_of. rewrite point_from_app by (rewrite repeat_length; lia).
    rewrite skipn_all2 by (rewrite repeat_length; lia). now rewrite app_nil_r.
  - intros H. apply point_from_long. now rewrite repeat_length.
  - unfold point0. rewrite <- read_some. f_equal. induction dims; [reflexivity|]. cbn [repeat map]. now f_equal.
Qed.
Example C85_points_ex : point_of 2 [3; 4]%Z = Some [Some 3; Some 4]%Z /\ point_of 2 [3; 4; 5]%Z = None.
Proof. split; reflexivity. Qed.

(** Finding R10: with fewer values the constructor accepts, but reading the point is undefined
    for every such list. *)
Theorem C85_points_refuted : forall dims (vs : list Z), length vs < dims ->
  exists p, point_of dims vs = Some p /\ length p = dims /\ read_point p = Undef.
Proof.
  intros dims vs H. exists (map Some vs ++ repeat None (dims - length vs)).
  assert (E : forall k j, skipn j (repeat (@None Z) k) = repeat None (k - j)).
  { induction k as [|k IH]; intros [|j]; try reflexivity. cbn [repeat skipn]. now rewrite IH. }
  split; [|split].
  - unfold point_of. rewrite point_from_app by (rewrite repeat_length; lia). now rewrite E.
  - rewrite app_length, map_length, repeat_length. lia.
  - destruct (dims - length vs) as [|k] eqn:Ek; [lia|]. apply read_none.
Qed.
Example C85_points_refuted_ex : point_of 3 [7]%Z = Some [Some 7%Z; None; None].
Proof. reflexivity. Qed.

(** An extent is the pair of its corners, and is_point tells whether they are equal; the extent
    of equal corners is the box of that point. *)
Theorem C85_extents : forall s e : point, length s = length e ->
  map fst (extent_of s e) = s /\ map snd (extent_of s e) = e /\
  (is_point (extent_of s e) = true <-> s = e) /\
  (extent_of s s = point_box s).
Proof.
  intros s e H.
  assert (F : map fst (extent_of s e) = s /\ map snd (extent_of s e) = e).
  { clear -H. unfold extent_of. revert e H. induction s as [|x s IH]; intros [|y e] H; cbn [length] in H; try lia; [split; reflexivity|].
    cbn [combine map]. destruct (IH e) as [E1 E2]; [lia|]. cbn [fst snd]. split; f_equal; auto. }
  destruct F as [F1 F2]. split; [exact F1|]. split; [exact F2|]. split.
  - unfold is_point. rewrite F1, F2. now apply point_eqb_eq.
  - clear. unfold extent_of, point_box. induction s as [|x s IH]; [reflexivity|]. cbn [combine map]. now f_equal.
Qed.
Example C85_extents_ex : is_point (extent_of [3; 4] [3; 4])%Z = true /\ is_point (extent_of [3; 4] [3; 5])%Z = false /\
  extent_of [0; 0]%Z [3; 5]%Z = [(0, 3); (0, 5)]%Z.
Proof. repeat split; reflexivity. Qed.

(** ** C86 *)
Section R.
Context {V : Type}.
Implicit Types (n : nd V) (s : st V) (r : list (addr * nat * box * V)).

Lemma asked_descend s r : asked s r -> exists dc vc, r = search_descend dc vc 0 (root s).
Proof. destruct 1; eexists; eexists; reflexivity. Qed.
Lemma descend_depth dc vc n : forall d a dd b v, In (a, dd, b, v) (search_descend dc vc d n) -> In dd (value_depths d n).
Proof.
  induction n as [a' p b' v'|a' p lf b' c ok ks IH] using nd_ind2; intros d a dd b v I; cbn [search_descend value_depths] in *.
  - destruct (vc b'); [|contradiction]. destruct I as [I|[]]. injection I as <- <- <- <-. now left.
  - destruct (dc b'); [|contradiction]. apply in_flat_map in I. destruct I as (k & Ik & I). apply in_flat_map. exists k. split; [exact Ik|].
    rewrite Forall_forall in IH. eapply IH; eauto.
Qed.
Lemma nodup_parts {A} (l l' : list A) : NoDup l -> NoDup l' -> (forall x, In x l -> ~ In x l') -> NoDup (l ++ l').
Proof.
  induction 1 as [|x l Hx N IH]; intros N' D; [exact N'|]. cbn [app]. constructor.
  - rewrite in_app_iff. intros [I|I]; [auto|]. apply (D x); [now left|exact I].
  - apply IH; [exact N'|]. intros y Iy. apply D. now right.
Qed.
Lemma nodup_halves {A} (l l' : list A) : NoDup (l ++ l') -> NoDup l /\ NoDup l' /\ (forall x, In x l -> ~ In x l').
Proof.
  induction l as [|x l IH]; cbn [app]; intros N; [split; [constructor|]; split; [exact N|]; intros x []|].
  inversion N as [|? ? Hx N1]; subst. destruct (IH N1) as (A1 & A2 & A3). rewrite in_app_iff in Hx. split; [constructor; tauto|]. split; [exact A2|].
  intros y [<-|I]; [tauto|]. now apply A3.
Qed.
Lemma objects_in dc vc n : forall d a, In a (objects (search_descend dc vc d n)) -> In a (addrs n).
Proof.
  induction n as [a' p b' v'|a' p lf b' c ok ks IH] using nd_ind2; intros d a I; cbn [search_descend addrs] in *.
  - destruct (vc b'); exact I || contradiction.
  - destruct (dc b'); [|contradiction]. right. unfold objects in I. apply in_map_iff in I. destruct I as (x & E & I).
    apply in_flat_map in I. destruct I as (k & Ik & I). apply in_flat_map. exists k. split; [exact Ik|]. rewrite Forall_forall in IH.
    eapply IH; [exact Ik|]. unfold objects. apply in_map_iff. eauto.
Qed.
Lemma objects_nodup dc vc n : forall d, NoDup (addrs n) -> NoDup (objects (search_descend dc vc d n)).
Proof.
  induction n as [a' p b' v'|a' p lf b' c ok ks IH] using nd_ind2; intros d N; cbn [search_descend addrs] in *.
  - destruct (vc b'); [exact N|constructor].
  - destruct (dc b'); [|constructor]. inversion N as [|? ? _ N1]; subst. clear N.
    induction IH as [|k ks Hk IH IH2]; [constructor|]. cbn [flat_map] in *. destruct (nodup_halves _ _ N1) as (A1 & A2 & A3).
    unfold objects in *. rewrite map_app. apply nodup_parts; auto.
    intros x I J. apply objects_in in I. apply (A3 x I). apply in_map_iff in J. destruct J as (y & E & J). apply in_flat_map in J.
    destruct J as (k' & Ik & J). apply in_flat_map. exists k'. split; [exact Ik|]. apply (objects_in dc vc k' (S d)). unfold objects. apply in_map_iff. eauto.
Qed.

(** Every object of the result still holds the box and the value *)
Definition live (s : st V) (x : addr * nat * box * V) : Prop :=
  match x with (a, _, b, v) => exists p, get a (root s) = Some (NV a p b v) end.
Lemma asked_live C tg rl kl H s r : sinv C tg rl kl H s -> asked s r -> Forall (live s) r.
Proof.
  intros Si A. destruct (asked_descend _ _ A) as (dc & vc & ->). apply Forall_forall. intros [[[a d] b] v] I.
  destruct (result_entry s _ _ a d b v _ _ _ _ _ Si I) as (G & _). exact G.
Qed.
Lemma live_show s x r1 r2 : live s x -> r_show s (results_of (r1 ++ x :: r2)) (length r1) = Ok (match x with (_, d, b, v) => (d, b, v) end).
Proof.
  destruct x as [[[a d] b] v]. intros (p & G). unfold r_show, results_of. rewrite map_app, nth_error_app2 by (rewrite map_length; lia).
  rewrite map_length, Nat.sub_diag. cbn [map nth_error deref bind fst snd]. now rewrite G.
Qed.
Lemma collect_forth s r2 : forall r1, Forall (live s) (r1 ++ r2) ->
  r_collect (length r2) s (results_of (r1 ++ r2)) (length r1) = Ok (shown r2).
Proof.
  assert (L : forall r, length (results_of r) = length r) by (intros r; apply map_length).
  induction r2 as [|x r2 IH]; intros r1 F.
  - cbn [length r_collect]. unfold r_eqb, r_end. rewrite L, app_nil_r, Nat.eqb_refl. reflexivity.
  - cbn [length r_collect]. unfold r_eqb, r_end. rewrite L, app_length. cbn [length].
    destruct (Nat.eqb_spec (length r1) (length r1 + S (length r2))); [lia|].
    rewrite live_show by (apply Forall_app in F; destruct F as [_ F]; now inversion F). cbn [bind].
    unfold r_post_inc, r_inc. rewrite L, app_length. cbn [length]. destruct (Nat.ltb_spec (length r1) (length r1 + S (length r2))); [|lia]. cbn [bind].
    specialize (IH (r1 ++ [x])). rewrite <- app_assoc, app_length in IH. cbn [length app] in IH. rewrite Nat.add_1_r in IH.
    rewrite (IH F). cbn [bind]. destruct x as [[[a d] b] v]. reflexivity.
Qed.
Lemma collect_back s r1 : forall r2, Forall (live s) (r1 ++ r2) ->
  r_collect_back (length r1) s (results_of (r1 ++ r2)) (length r1) = Ok (rev (shown r1)).
Proof.
  induction r1 as [|x r1 IH] using rev_ind; intros r2 F; [reflexivity|].
  rewrite app_length, Nat.add_1_r. cbn [r_collect_back]. unfold r_eqb, r_begin. cbn [Nat.eqb r_post_dec r_dec bind].
  rewrite <- app_assoc in *. cbn [app] in *.
  rewrite live_show by (apply Forall_app in F; destruct F as [_ F]; now inversion F). cbn [bind].
  rewrite (IH (x :: r2) F). cbn [bind]. unfold shown. rewrite map_app, rev_app_distr. destruct x as [[[a d] b] v]. reflexivity.
Qed.
End R.

(** The iterators of a search result, from begin to end, show exactly what the search found, in
    order, and backwards the reverse; no object occurs twice; all depths are the same number,
    the number of directories above a value. *)
Theorem C86_results : forall (V : Type) (C : cfg), traits_ok C -> forall ld (s : st V) l, managed C ld s l -> forall r, asked s r ->
  r_collect (length r) s (results_of r) (r_begin (results_of r)) = Ok (shown r) /\
  r_collect_back (length r) s (results_of r) (r_end (results_of r)) = Ok (rev (shown r)) /\
  NoDup (objects r) /\
  exists D, Forall (fun d => d = D) (value_depths 0 (root s)) /\ Forall (fun x => fst (fst x) = D) (shown r).
Proof.
  intros V C T ld s l B r A. destruct (managed_holds C T ld s l B) as (H & Hh). pose proof (asked_live C _ _ _ _ s r (proj1 Hh) A) as F.
  split; [exact (collect_forth s r [] F)|]. split.
  { unfold r_end, results_of at 2. rewrite map_length. pose proof (collect_back s r []) as E. rewrite app_nil_r in E. exact (E F). }
  destruct (asked_descend _ _ A) as (dc & vc & ->). split; [apply objects_nodup, (l_nodup _ _ (s_linv _ _ _ _ _ _ (proj1 Hh)))|].
  pose proof (holds_depths _ _ _ _ _ _ _ Hh) as Hd. exists H. split; [exact Hd|]. apply Forall_forall. intros x I.
  unfold shown in I. apply in_map_iff in I. destruct I as ([[[a d] b] v] & <- & I). apply descend_depth in I. rewrite Forall_forall in Hd. exact (Hd _ I).
Qed.
Example C86_results_ex : managed c4 false (ex_tree 3) (rev (ex_list 3)) /\
  let r := search_overlap [(4, 5); (0, 1)]%Z (ex_tree 14) in
  r_collect 2 (ex_tree 14) (results_of r) 0 = Ok [(3, ex_box 5, 5); (3, ex_box 3, 3)].
Proof. split; [exact built_managed_ex|]. vm_compute. reflexivity. Qed.

(** The postfix operators return where the iterator was. *)
Theorem C86_postfix : forall (r : results) i, i < r_end r ->
  r_post_inc r i = Ok (i, S i) /\ r_post_dec r (S i) = Ok (S i, i) /\ r_inc r i = Ok (S i) /\ r_dec r (S i) = Ok i.
Proof.
  intros r i H. unfold r_end in H. unfold r_post_inc, r_inc. destruct (Nat.ltb_spec i (length r)); [|lia]. repeat split; reflexivity.
Qed.
Example C86_postfix_ex : 1 < r_end [(4, 2); (6, 2)].
Proof. cbn. lia. Qed.

(** ** C87 *)
(** Assignment through an iterator of a search result succeeds and changes the value of that
    entry and nothing else: every search returns the same objects, depths and boxes in the same
    order, the iterators of all earlier searches stay valid and show the new value, the reports
    of the tree stay the same, and every operation may follow. *)
Theorem C87_write : forall (V : Type) (C : cfg), traits_ok C -> forall ld (s : st V) l, managed C ld s l ->
  forall r i a d b v w, asked s r -> nth_error r i = Some (a, d, b, v) ->
  exists s' l', r_write s (results_of r) i w = Ok s' /\
    Permutation l ((b, v) :: l') /\ managed C ld s' ((b, w) :: l') /\
    ((forall q, search_overlap q s' = revalued a w (search_overlap q s)) /\
     (forall q, search_match q s' = revalued a w (search_match q s)) /\
     (forall q, search_pt_overlap q s' = revalued a w (search_pt_overlap q s)) /\
     (forall q, search_pt_match q s' = revalued a w (search_pt_match q s))) /\
    (forall r0, asked s r0 ->
       r_collect (length r0) s' (results_of r0) (r_begin (results_of r0)) = Ok (shown (revalued a w r0))) /\
    size s' = size s /\ empty s' = empty s /\ extent s' = extent s /\ walk s' = walk s /\
    (forall emin, check_integrity C emin s' = check_integrity C emin s).
Proof.
  intros V C T ld s l B r i a d b v w A I. destruct (managed_holds C T ld s l B) as (H & Hh). pose proof Hh as (Si & P & D).
  pose proof (asked_live C _ _ _ _ s r Si A) as F. rewrite Forall_forall in F. destruct (F _ (nth_error_In _ _ I)) as (p & G).
  assert (E : r_write s (results_of r) i w = Ok (write a w s)).
  { unfold r_write, results_of. rewrite nth_error_map, I. cbn [option_map deref bind fst]. rewrite G. f_equal. eapply upd_write; eauto. }
  assert (Ie : In (b, v) l).
  { eapply Permutation_in; [exact P|]. destruct (asked_descend _ _ A) as (dc & vc & E2).
    assert (I2 : In (a, d, b, v) (search_descend dc vc 0 (root s))) by (rewrite <- E2; eapply nth_error_In; eauto).
    now destruct (result_entry s _ _ a d b v _ _ _ _ _ Si I2). }
  destruct (in_split _ _ Ie) as (l1 & l2 & ->). exists (write a w s), (l1 ++ l2).
  assert (Pl : Permutation (l1 ++ (b, v) :: l2) ((b, v) :: l1 ++ l2)) by (symmetry; apply Permutation_middle).
  assert (B' : managed C ld (write a w s) ((b, w) :: l1 ++ l2)).
  { rewrite <- (upd_write C _ _ _ _ s a p b v w Si G). eapply managed_write; eauto. }
  assert (Q : forall dc vc, search_descend dc vc 0 (root (write a w s)) = revalued a w (search_descend dc vc 0 (root s))) by (intros; apply setv_search).
  split; [exact E|]. split; [exact Pl|]. split; [exact B'|]. split; [repeat split; intros q; apply Q|]. split.
  - intros r0 A0. destruct (asked_descend _ _ A0) as (dc & vc & ->).
    assert (E1 : results_of (search_descend dc vc 0 (root s)) = results_of (revalued a w (search_descend dc vc 0 (root s)))).
    { unfold results_of, revalued. rewrite map_map. apply map_ext. now intros [[[? ?] ?] ?]. }
    assert (E2 : length (search_descend dc vc 0 (root s)) = length (revalued a w (search_descend dc vc 0 (root s)))) by (unfold revalued; now rewrite map_length).
    rewrite E1, E2. apply (collect_forth _ _ []). rewrite <- Q. cbn [app]. apply Forall_forall. intros [[[a1 d1] b1] v1] I1.
    destruct (result_entry _ _ _ a1 d1 b1 v1 _ _ _ _ _ (write_sinv C _ _ _ _ s a w Si) I1) as (G1 & _). exact G1.
  - unfold size, empty, extent, walk. cbn [root write]. split; [apply setv_nvals|]. split; [now rewrite setv_cnt|]. split; [apply setv_box|].
    split; [apply setv_walk|]. intros emin. unfold check_integrity. cbn [root write]. rewrite setv_check. destruct (root s) as [|? [|] ? ? ? ? ?]; reflexivity.
Qed.

Definition ex_found := search_overlap [(4, 5); (0, 1)]%Z (ex_tree 14).
Definition ex_written : st nat := match r_write (ex_tree 14) (results_of ex_found) 1 100 with Ok s => s | _ => ex_tree 14 end.
Example C87_write_ex : asked (ex_tree 14) ex_found /\ nth_error ex_found 1 = Some (fst (ex_at (ex_tree 14) 3), 3, ex_box 3, 3) /\
  map snd (found (search_overlap [(0, 9); (0, 9)]%Z ex_written)) = map (fun v => if Nat.eqb v 3 then 100 else v) (map snd (found (search_overlap [(0, 9); (0, 9)]%Z (ex_tree 14)))).
Proof. split; [constructor|]. split; vm_compute; reflexivity. Qed.

Definition RtProps4_theorems := (@C85_points_partial, @C85_points_refuted, @C85_extents, @C86_results, @C86_postfix, @C87_write).
Print Assumptions RtProps4_theorems.
