(** Trees of the rtree model: addresses, links, contexts. *)

From Coq Require Import List ZArith Lia Bool Permutation.
From Verif Require Import Base RtModel RtBox.
Import ListNotations.

Section T.
Context {V : Type}.
Implicit Types (n k t x : nd V) (ks l : list (nd V)).

Lemma nd_ind2 (P : nd V -> Prop) :
  (forall a p b v, P (NV a p b v)) ->
  (forall a p lf b c ok ks, Forall P ks -> P (ND a p lf b c ok ks)) ->
  forall n, P n.
Proof.
  intros H1 H2. fix IH 1. intros [a p b v|a p lf b c ok ks]; [apply H1|apply H2].
  induction ks as [|k ks IHk]; constructor; [apply IH|apply IHk].
Qed.

(** The entries below a node *)
Fixpoint entries (n : nd V) : list (box * V) :=
  match n with NV _ _ b v => [(b, v)] | ND _ _ _ _ _ _ ks => flat_map entries ks end.

(** The addresses in use below (and at) a node *)
Fixpoint addrs (n : nd V) : list addr :=
  match n with NV a _ _ _ => [a] | ND a _ _ _ _ _ ks => a :: flat_map addrs ks end.
Definition kaddrs (n : nd V) : list addr := flat_map addrs (nkids n).

Lemma addrs_eq n : addrs n = na n :: kaddrs n.
Proof. destruct n; reflexivity. Qed.

Definition nok (n : nd V) : bool := match n with NV _ _ _ _ => false | ND _ _ _ _ _ ok _ => ok end.

(** Every child points to its parent *)
Fixpoint lk (n : nd V) : Prop :=
  match n with
  | NV _ _ _ _ => True
  | ND a _ _ _ _ _ ks =>
      (fix go (l : list (nd V)) : Prop :=
         match l with [] => True | k :: r => (npar k = Some a /\ lk k) /\ go r end) ks
  end.

Lemma lk_dir a p lf b c ok ks :
  lk (ND a p lf b c ok ks) <-> Forall (fun k => npar k = Some a /\ lk k) ks.
Proof.
  cbn [lk]. induction ks as [|k ks IH]; [split; constructor|].
  rewrite IH. split; [intros [H1 H2]; constructor; auto|]. intros H. inversion H; auto.
Qed.

(** reset_parent_pointers_of_children makes every child point to its parent *)
Fixpoint lkr (n : nd V) : Prop :=
  match n with
  | NV _ _ _ _ => True
  | ND a _ _ _ _ ok ks =>
      if ok then (fix go (l : list (nd V)) : Prop :=
         match l with [] => True | k :: r => (npar k = Some a /\ lk k) /\ go r end) ks
      else (fix go (l : list (nd V)) : Prop :=
         match l with [] => True | k :: r => lkr k /\ go r end) ks
  end.

Lemma lkr_true a p lf b c ks : lkr (ND a p lf b c true ks) <-> lk (ND a p lf b c true ks).
Proof. reflexivity. Qed.

Lemma lkr_false a p lf b c ks : lkr (ND a p lf b c false ks) <-> Forall lkr ks.
Proof.
  cbn [lkr]. induction ks as [|k ks IH]; [split; constructor|].
  rewrite IH. split; [intros [H1 H2]; constructor; auto|]. intros H. inversion H; auto.
Qed.

Lemma lk_lkr n : lk n -> lkr n.
Proof.
  induction n as [a p b v|a p lf b c ok ks IH] using nd_ind2; intros H; [exact I|].
  destruct ok; [exact H|]. apply lkr_false. apply lk_dir in H.
  rewrite Forall_forall in *. intros k Hk. apply IH; auto. apply H, Hk.
Qed.

Lemma lkr_set_false n : lk n -> lkr (set_ok false n).
Proof.
  intros H. destruct n as [a p b v|a p lf b c ok ks]; [exact I|]. cbn [set_ok]. apply lkr_false.
  apply lk_dir in H. eapply Forall_impl; [|exact H]. intros k [_ Hk]. now apply lk_lkr.
Qed.

Lemma lk_set_par p n : lk (set_par p n) <-> lk n.
Proof. destruct n; reflexivity. Qed.
Lemma lk_set_box b n : lk (set_box b n) <-> lk n.
Proof. destruct n; reflexivity. Qed.
Lemma lk_set_ok b n : lk (set_ok b n) <-> lk n.
Proof. destruct n; reflexivity. Qed.

(** *** What the field assignments leave alone *)
Lemma na_set_par p n : na (set_par p n) = na n. Proof. destruct n; reflexivity. Qed.
Lemma na_set_box p n : na (set_box p n) = na n. Proof. destruct n; reflexivity. Qed.
Lemma na_set_ok p n : na (set_ok p n) = na n. Proof. destruct n; reflexivity. Qed.
Lemma na_set_a p n : na (set_a p n) = p. Proof. destruct n; reflexivity. Qed.
Lemma npar_set_par p n : npar (set_par p n) = p. Proof. destruct n; reflexivity. Qed.
Lemma npar_set_a p n : npar (set_a p n) = npar n. Proof. destruct n; reflexivity. Qed.
Lemma npar_set_ok p n : npar (set_ok p n) = npar n. Proof. destruct n; reflexivity. Qed.
Lemma nbox_set_par p n : nbox (set_par p n) = nbox n. Proof. destruct n; reflexivity. Qed.
Lemma nbox_set_a p n : nbox (set_a p n) = nbox n. Proof. destruct n; reflexivity. Qed.
Lemma nbox_set_ok p n : nbox (set_ok p n) = nbox n. Proof. destruct n; reflexivity. Qed.
Lemma kaddrs_set_a p n : kaddrs (set_a p n) = kaddrs n. Proof. destruct n; reflexivity. Qed.
Lemma kaddrs_set_ok p n : kaddrs (set_ok p n) = kaddrs n. Proof. destruct n; reflexivity. Qed.
Lemma addrs_set_par p n : addrs (set_par p n) = addrs n. Proof. destruct n; reflexivity. Qed.
Lemma addrs_set_ok p n : addrs (set_ok p n) = addrs n. Proof. destruct n; reflexivity. Qed.
Lemma addrs_set_box p n : addrs (set_box p n) = addrs n. Proof. destruct n; reflexivity. Qed.
Lemma entries_set_par p n : entries (set_par p n) = entries n. Proof. destruct n; reflexivity. Qed.
Lemma entries_set_a p n : entries (set_a p n) = entries n. Proof. destruct n; reflexivity. Qed.
Lemma entries_set_ok p n : entries (set_ok p n) = entries n. Proof. destruct n; reflexivity. Qed.

(** *** reset_parent_pointers *)
Lemma na_reset_kids n : na (reset_kids n) = na n.
Proof. destruct n as [|? ? ? ? ? [] ?]; reflexivity. Qed.
Lemma npar_reset_kids n : npar (reset_kids n) = npar n.
Proof. destruct n as [|? ? ? ? ? [] ?]; reflexivity. Qed.
Lemma nbox_reset_kids n : nbox (reset_kids n) = nbox n.
Proof. destruct n as [|? ? ? ? ? [] ?]; reflexivity. Qed.

Lemma addrs_reset_kids n : addrs (reset_kids n) = addrs n.
Proof.
  induction n as [a p b v|a p lf b c ok ks IH] using nd_ind2; [reflexivity|].
  cbn [reset_kids]. destruct ok; [reflexivity|]. cbn [addrs]. f_equal.
  induction IH as [|k ks Hk IH IH2]; [reflexivity|]. cbn [map flat_map].
  now rewrite addrs_set_par, Hk, IH2.
Qed.

Lemma entries_reset_kids n : entries (reset_kids n) = entries n.
Proof.
  induction n as [a p b v|a p lf b c ok ks IH] using nd_ind2; [reflexivity|].
  cbn [reset_kids]. destruct ok; [reflexivity|]. cbn [entries].
  induction IH as [|k ks Hk IH IH2]; [reflexivity|]. cbn [map flat_map].
  now rewrite entries_set_par, Hk, IH2.
Qed.

Lemma lk_reset_kids n : lkr n -> lk (reset_kids n).
Proof.
  induction n as [a p b v|a p lf b c ok ks IH] using nd_ind2; intros H; [exact I|].
  cbn [reset_kids]. destruct ok; [exact H|]. apply lk_dir. apply lkr_false in H.
  rewrite Forall_map. rewrite Forall_forall in *. intros k Hk.
  rewrite npar_set_par, lk_set_par. auto.
Qed.

(** *** Addresses: reading and writing *)
Lemma get_dir a a' p lf b c ok ks : get a (ND a' p lf b c ok ks) =
  if Nat.eqb a' a then Some (ND a' p lf b c ok ks)
  else fold_right (fun k r => match get a k with Some x => Some x | None => r end) None ks.
Proof.
  cbn [get na]. destruct (Nat.eqb a' a); [reflexivity|].
  induction ks as [|k ks IH]; [reflexivity|]. cbn [fold_right]. now rewrite <- IH.
Qed.

Lemma get_notin a n : ~ In a (addrs n) -> get a n = None.
Proof.
  induction n as [a' p b v|a' p lf b c ok ks IH] using nd_ind2; intros H.
  - cbn [get na addrs] in *. destruct (Nat.eqb_spec a' a); [|auto]. exfalso. apply H. left. auto.
  - rewrite get_dir. destruct (Nat.eqb_spec a' a) as [E|E]; [exfalso; apply H; left; auto|].
    cbn [addrs] in H. assert (G : ~ In a (flat_map addrs ks)) by (intros G; apply H; right; auto). clear H E.
    induction IH as [|k ks Hk IH IH2]; [reflexivity|]. cbn [fold_right flat_map] in *.
    rewrite in_app_iff in G. rewrite Hk by tauto. apply IH2. tauto.
Qed.

Lemma upd_notin a y n : ~ In a (addrs n) -> upd a y n = n.
Proof.
  induction n as [a' p b v|a' p lf b c ok ks IH] using nd_ind2; intros H.
  - cbn [upd na addrs] in *. destruct (Nat.eqb_spec a' a); [|auto]. exfalso. apply H. left. auto.
  - cbn [upd na]. destruct (Nat.eqb_spec a' a) as [E|E]; [exfalso; apply H; left; auto|].
    cbn [addrs] in H. f_equal. assert (G : ~ In a (flat_map addrs ks)) by (intros G; apply H; right; auto). clear H E.
    induction IH as [|k ks Hk IH IH2]; [reflexivity|]. cbn [map flat_map] in *.
    rewrite in_app_iff in G. rewrite Hk by tauto. f_equal. apply IH2. tauto.
Qed.

Lemma get_self n : get (na n) n = Some n.
Proof. destruct n; cbn [get na]; now rewrite Nat.eqb_refl. Qed.
Lemma upd_self y n : upd (na n) y n = y.
Proof. destruct n; cbn [upd na]; now rewrite Nat.eqb_refl. Qed.

(** *** Contexts: the way from a node to the root *)
Record fr := FR { fa : addr; fp : option addr; flf : bool; fb : box; fc : nat; fok : bool;
                  fl : list (nd V); frt : list (nd V) }.
Definition plug1 (f : fr) (n : nd V) : nd V :=
  ND (fa f) (fp f) (flf f) (fb f) (fc f) (fok f) (fl f ++ n :: frt f).
Fixpoint plug (c : list fr) (n : nd V) : nd V :=
  match c with [] => n | f :: c => plug c (plug1 f n) end.

Definition faddrs (f : fr) : list addr := fa f :: flat_map addrs (fl f ++ frt f).
Definition caddrs (c : list fr) : list addr := flat_map faddrs c.
Definition centries (c : list fr) : list (box * V) :=
  flat_map (fun f => flat_map entries (fl f ++ frt f)) c.

Lemma addrs_plug1 f n : Permutation (addrs (plug1 f n)) (addrs n ++ faddrs f).
Proof.
  unfold plug1, faddrs. cbn [addrs]. rewrite !flat_map_app. cbn [flat_map].
  rewrite app_assoc.
  transitivity (fa f :: (addrs n ++ flat_map addrs (fl f) ++ flat_map addrs (frt f))).
  - apply perm_skip. rewrite app_assoc. apply Permutation_app_tail. apply Permutation_app_comm.
  - apply Permutation_middle.
Qed.

Lemma addrs_plug c n : Permutation (addrs (plug c n)) (addrs n ++ caddrs c).
Proof.
  revert n. induction c as [|f c IH]; intros n; cbn [plug caddrs flat_map].
  - now rewrite app_nil_r.
  - rewrite IH, addrs_plug1. now rewrite <- app_assoc.
Qed.

Lemma entries_plug c n : Permutation (entries (plug c n)) (entries n ++ centries c).
Proof.
  revert n. induction c as [|f c IH]; intros n; cbn [plug centries flat_map].
  - now rewrite app_nil_r.
  - rewrite IH. unfold plug1. cbn [entries]. fold (centries c). rewrite !flat_map_app. cbn [flat_map].
    rewrite !app_assoc. apply Permutation_app_tail.
    apply Permutation_app_tail. apply Permutation_app_comm.
Qed.

Lemma get_list (f : nd V -> option (nd V)) l1 n l2 :
  (forall k, In k l1 -> f k = None) -> f n <> None ->
  fold_right (fun k r => match f k with Some x => Some x | None => r end) None (l1 ++ n :: l2) = f n.
Proof.
  intros H N. induction l1 as [|k l1 IH]; cbn [app fold_right].
  - destruct (f n); [auto|congruence].
  - rewrite H by (left; auto). apply IH. intros k' Hk. apply H. right. auto.
Qed.

Lemma plug1_sep f n a : In a (addrs n) -> NoDup (addrs (plug1 f n)) ->
  fa f <> a /\ (forall k, In k (fl f ++ frt f) -> ~ In a (addrs k)).
Proof.
  intros Ha N. apply (Permutation_NoDup (addrs_plug1 f n)) in N.
  assert (G : ~ In a (faddrs f)).
  { intros G. revert N Ha G. generalize (faddrs f). generalize (addrs n). clear.
    induction l as [|y l IH]; intros l' N H1 H2; [destruct H1|]. cbn [app] in N. inversion N; subst.
    destruct H1 as [->|H1]; [|eauto]. apply H3. apply in_or_app. auto. }
  unfold faddrs in G. split; [intros E; apply G; left; auto|].
  intros k Hk Hi. apply G. right. apply in_flat_map. eauto.
Qed.

Lemma get_plug1 f n a : In a (addrs n) -> NoDup (addrs (plug1 f n)) -> get a n <> None ->
  get a (plug1 f n) = get a n.
Proof.
  intros Ha N G. destruct (plug1_sep _ _ _ Ha N) as [N1 N2]. unfold plug1. rewrite get_dir.
  apply Nat.eqb_neq in N1. rewrite N1. apply get_list; auto.
  intros k Hk. apply get_notin, N2. apply in_or_app. auto.
Qed.

Lemma upd_plug1 f n a y : In a (addrs n) -> NoDup (addrs (plug1 f n)) ->
  upd a y (plug1 f n) = plug1 f (upd a y n).
Proof.
  intros Ha N. destruct (plug1_sep _ _ _ Ha N) as [N1 N2]. unfold plug1. cbn [upd na].
  apply Nat.eqb_neq in N1. rewrite N1. f_equal. rewrite map_app. cbn [map].
  assert (H : forall l, (forall k, In k l -> In k (fl f ++ frt f)) -> map (upd a y) l = l).
  { induction l as [|k l IH]; intros H; [reflexivity|]. cbn [map]. rewrite upd_notin, IH; auto.
    - intros k' Hk. apply H. right. auto.
    - apply N2, H. left. auto. }
  rewrite !H; auto; intros k Hk; apply in_or_app; auto.
Qed.

Lemma nodup_app_l {A} (l l' : list A) : NoDup (l ++ l') -> NoDup l.
Proof.
  induction l as [|x l IH]; intros H; [constructor|]. cbn [app] in H. inversion H; subst.
  constructor; [|auto]. intros Hi. apply H2. apply in_or_app. auto.
Qed.

Lemma nodup_plug c n : NoDup (addrs (plug c n)) -> NoDup (addrs n).
Proof. intros N. apply (Permutation_NoDup (addrs_plug c n)) in N. eapply nodup_app_l; eauto. Qed.

Lemma get_plug_in c n a : In a (addrs n) -> NoDup (addrs (plug c n)) -> get a n <> None ->
  get a (plug c n) = get a n.
Proof.
  revert n. induction c as [|f c IH]; intros n Ha N G; cbn [plug] in *; [reflexivity|].
  pose proof (nodup_plug _ _ N) as N1.
  rewrite IH; auto.
  - now apply get_plug1.
  - eapply Permutation_in; [apply Permutation_sym, addrs_plug1|]. apply in_or_app. auto.
  - rewrite get_plug1; auto.
Qed.

Lemma get_plug c n : NoDup (addrs (plug c n)) -> get (na n) (plug c n) = Some n.
Proof.
  intros N. rewrite get_plug_in; auto.
  - apply get_self.
  - rewrite addrs_eq. left. auto.
  - rewrite get_self. discriminate.
Qed.

Lemma upd_plug c n y : NoDup (addrs (plug c n)) -> upd (na n) y (plug c n) = plug c y.
Proof.
  assert (H : forall a, In a (addrs n) -> NoDup (addrs (plug c n)) -> upd a y (plug c n) = plug c (upd a y n)).
  { intros a Ha N. revert n Ha N. induction c as [|f c IH]; intros n Ha N; cbn [plug] in *; [reflexivity|].
    pose proof (nodup_plug _ _ N) as N1. rewrite IH; auto.
    - now rewrite upd_plug1.
    - eapply Permutation_in; [apply Permutation_sym, addrs_plug1|]. apply in_or_app. auto. }
  intros N. rewrite H; auto.
  - now rewrite upd_self.
  - rewrite addrs_eq. left. auto.
Qed.

Lemma plug_app c1 c2 n : plug (c1 ++ c2) n = plug c2 (plug c1 n).
Proof. revert n. induction c1 as [|f c1 IH]; intros n; cbn [app plug]; auto. Qed.

Lemma na_plug c n y : na n = na y -> na (plug c n) = na (plug c y).
Proof. revert n y. induction c as [|f c IH]; intros n y H; cbn [plug]; auto. Qed.

(** The pointer a node in the hole must hold *)
Definition hpar (c : list fr) : option addr := match c with [] => None | f :: _ => Some (fa f) end.

Fixpoint clk (c : list fr) : Prop :=
  match c with
  | [] => True
  | f :: c' => Forall (fun k => npar k = Some (fa f) /\ lk k) (fl f ++ frt f) /\ fp f = hpar c' /\ clk c'
  end.

Lemma lk_plug c n : clk c -> npar n = hpar c -> lk n -> lk (plug c n) /\ npar (plug c n) = None.
Proof.
  revert n. induction c as [|f c IH]; intros n H P L; cbn [plug clk hpar] in *; [auto|].
  destruct H as (H1 & H2 & H3). apply IH; auto. unfold plug1. apply lk_dir.
  apply Forall_app in H1. destruct H1. apply Forall_app. split; auto.
Qed.

Lemma lk_unplug c n : lk (plug c n) -> npar (plug c n) = None -> clk c /\ npar n = hpar c /\ lk n.
Proof.
  revert n. induction c as [|f c IH]; intros n L P; cbn [plug clk hpar] in *; [auto|].
  destruct (IH _ L P) as (H1 & H2 & H3). unfold plug1 in H3. apply lk_dir in H3.
  apply Forall_app in H3. destruct H3 as [H3 H4]. inversion H4 as [|? ? H5 H6]; subst.
  split; [|tauto]. split; [apply Forall_app; auto|]. auto.
Qed.

Lemma nnodes_plug c n : (length c < nnodes (plug c n))%nat.
Proof.
  assert (H : forall c n, (length c + nnodes n <= nnodes (plug c n))%nat).
  { clear. induction c as [|f c IH]; intros n; cbn [plug length]; [lia|].
    pose proof (IH (plug1 f n)) as H. unfold plug1 in H at 1. cbn [nnodes] in H.
    rewrite map_app, list_sum_app in H. cbn [map list_sum fold_right] in H.
    change (fold_right Nat.add 0%nat (map nnodes (frt f))) with (list_sum (map nnodes (frt f))) in H. lia. }
  pose proof (H c n). assert (1 <= nnodes n)%nat by (destruct n; cbn [nnodes]; lia). lia.
Qed.

(** *** The part of a node that does not depend on the object it is in *)
Definition core (n : nd V) : nd V := set_ok false (set_a 0 n).

Lemma core_forall (Q : nd V -> Prop) l l' : (forall k, Q (core k) <-> Q k) ->
  Permutation (map core l) (map core l') -> Forall Q l' -> Forall Q l.
Proof.
  intros E P H. assert (G : Forall Q (map core l')).
  { rewrite Forall_map. eapply Forall_impl; [|exact H]. intros k. now apply E. }
  apply (Permutation_Forall (Permutation_sym P)) in G. rewrite Forall_map in G.
  eapply Forall_impl; [|exact G]. intros k. now apply E.
Qed.

Lemma core_flat {A} (f : nd V -> list A) l l' : (forall k, f (core k) = f k) ->
  Permutation (map core l) (map core l') -> Permutation (flat_map f l) (flat_map f l').
Proof.
  intros E P. apply (Permutation_flat_map f) in P. rewrite !flat_map_concat_map, !map_map in *.
  rewrite (map_ext _ f) in P by auto. rewrite (map_ext (fun x => f (core x)) f) in P by auto. exact P.
Qed.

Lemma core_entries n : entries (core n) = entries n.
Proof. destruct n; reflexivity. Qed.
Lemma core_kaddrs n : kaddrs (core n) = kaddrs n.
Proof. destruct n; reflexivity. Qed.
Lemma core_nbox n : nbox (core n) = nbox n.
Proof. destruct n; reflexivity. Qed.

Lemma core_readdr z l : map core (readdr z l) = map core l.
Proof. revert z. induction l as [|k l IH]; intros z; cbn [readdr map]; [auto|]. rewrite IH. f_equal. now destruct k. Qed.
Lemma na_readdr z l : map na (readdr z l) = seq z (length l).
Proof. revert z. induction l as [|k l IH]; intros z; cbn [readdr map length seq]; [auto|]. now rewrite IH, na_set_a. Qed.
Lemma readdr_length z l : length (readdr z l) = length l.
Proof. revert z. induction l as [|k l IH]; intros z; cbn [readdr length]; auto. Qed.

Lemma core_reslot s l : (length l <= length s)%nat -> map core (reslot s l) = map core l.
Proof.
  revert l. induction s as [|a s IH]; intros [|k l] L; cbn [reslot map length] in *; auto; try lia.
  rewrite IH by lia. f_equal. now destruct k.
Qed.
Lemma na_reslot s l : (length l <= length s)%nat -> map na (reslot s l) = firstn (length l) s.
Proof.
  revert l. induction s as [|a s IH]; intros [|k l] L; cbn [reslot map length firstn] in *; auto; try lia.
  rewrite IH by lia. now rewrite na_set_a.
Qed.
Lemma reslot_length s l : (length l <= length s)%nat -> length (reslot s l) = length l.
Proof.
  revert l. induction s as [|a s IH]; intros [|k l] L; cbn [reslot length] in *; auto; try lia.
  now rewrite IH by lia.
Qed.

Lemma flat_addrs l : Permutation (flat_map addrs l) (map na l ++ flat_map kaddrs l).
Proof.
  induction l as [|k l IH]; [constructor|]. cbn [flat_map map]. rewrite addrs_eq. cbn [app].
  apply perm_skip. rewrite IH, !app_assoc. apply Permutation_app_tail. apply Permutation_app_comm.
Qed.

End T.
Arguments fr V : clear implicits.
