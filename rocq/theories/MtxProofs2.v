(** Proofs about multi_type_matrix, second part: writing, copying, transposing, and
    walking two matrices. *)
From Coq Require Import List ZArith Lia Bool.
From Verif Require Import Base MtvModel MtvModel2 MtvSpec MtvProofs MtvWrap MtvBridge MtvBridge2
  MtxModel MtxSpec MtxProofs.
Import ListNotations.

Section P.
Set Default Proof Using "All".
Context {V : Type}.
Variable cat : V -> nat.
Variable kind : nat -> option mty.
Notation st := (@MtvModel.st V).
Notation eblk := (@MtvModel.eblk V).
Notation mtx := (@MtxModel.mtx V).
Notation good := (good cat).
Notation rch := (@reach V cat nm (fun v => v) (fun _ => true) anyop).
Notation mgood := (mgood cat).
Local Notation store_step := (store_step cat).

(** ** Replacing cells *)

Lemma splice_len {A} a n (x l : list A) : a + n <= length l -> length x = n -> length (splice a n x l) = length l.
Proof using. intros H1 H2. unfold splice. rewrite !app_length, firstn_length, skipn_length. lia. Qed.

Lemma nth_splice_same {A} a n (x l : list A) p : a + n <= length l -> length x = n ->
  nth_error (splice a n x l) p =
  if (a <=? p) && (p <? a + n) then nth_error x (p - a) else nth_error l p.
Proof using.
  intros H1 H2. rewrite nth_splice by lia.
  destruct (Nat.ltb_spec p a), (Nat.leb_spec a p); try lia; cbn [andb]; [reflexivity|].
  rewrite H2. destruct (Nat.ltb_spec p (a + n)); [reflexivity|]. f_equal. lia.
Qed.

Lemma splice_splice {A} a n k (x y l : list A) : length x = n -> a + n + k <= length l ->
  splice (a + n) k y (splice a n x l) = splice a (n + k) (x ++ y) l.
Proof.
  intros H1 H2. unfold splice.
  assert (firstn (a + n) (firstn a l ++ x ++ skipn (a + n) l) = firstn a l ++ x) as ->.
  { rewrite app_assoc, firstn_app, app_length, firstn_length.
    replace (a + n - (Nat.min a (length l) + length x)) with 0 by lia. cbn [firstn]. rewrite app_nil_r.
    apply firstn_all2. rewrite app_length, firstn_length. lia. }
  assert (skipn (a + n + k) (firstn a l ++ x ++ skipn (a + n) l) = skipn (a + (n + k)) l) as ->.
  { rewrite app_assoc, skipn_app, app_length, firstn_length.
    rewrite skipn_all2 by (rewrite app_length, firstn_length; lia). cbn [app].
    rewrite (skipn_add cat kind). f_equal. lia. }
  now rewrite <- !app_assoc.
Qed.

(** What a call on the store does to the cells. *)
Definition cells_set (m m' : mtx) (a n : nat) (x : list (option V)) : Prop :=
  mgood m' /\ rows m' = rows m /\ cols m' = cols m /\
  forall i j, mget i j m' =
    let p := rows m * j + i in
    if (a <=? p) && (p <? a + n)
    then match nth_error x (p - a) with Some y => Ok y | None => Undef end
    else mget i j m.

Lemma cells_of (m : mtx) s' a n x : mgood m -> a + n <= cs (store m) -> length x = n ->
  good s' -> (rch (store m) -> rch s') -> flat s' = splice a n x (flat (store m)) ->
  cells_set m (with_store m s') a n x.
Proof.
  intros G Ha Hx G' R F.
  assert (length (flat s') = cs (store m)) as Hl.
  { rewrite F, splice_len; rewrite ?(len_flat cat _ (mgood_good cat kind m G)); auto. }
  assert (mgood (with_store m s')) as GM.
  { split; [apply R, G|]. cbn [with_store store rows cols]. rewrite <- (len_flat cat s' G'), Hl. apply G. }
  split; [exact GM|]. split; [reflexivity|]. split; [reflexivity|]. intros i j. cbn zeta.
  rewrite (mget_eq cat kind (with_store m s') i j GM), (mget_eq cat kind m i j G).
  cbn [with_store store rows]. rewrite F, nth_splice_same; auto.
  2: rewrite (len_flat cat _ (mgood_good cat kind m G)); exact Ha.
  destruct ((a <=? rows m * j + i) && (rows m * j + i <? a + n)) eqn:E; [|reflexivity].
  destruct (nth_error x (rows m * j + i - a)) eqn:E2; [reflexivity|].
  apply nth_error_None in E2. apply andb_true_iff in E as [E3 E4].
  apply Nat.leb_le in E3. apply Nat.ltb_lt in E4. lia.
Qed.

Lemma flat_ne (m : mtx) p : mgood m -> p < cs (store m) -> flat (store m) <> [].
Proof. intros G Hp E. pose proof (len_flat cat _ (mgood_good cat kind m G)) as H. rewrite E in H. cbn in H. lia. Qed.

Lemma set_cells (m : mtx) h p v : mgood m -> p < cs (store m) ->
  exists s' b, set cat nm h p v (store m) = Ok (s', b) /\ cells_set m (with_store m s') p 1 [Some v].
Proof.
  intros G Hp. pose proof (mgood_good cat kind m G) as Gs.
  destruct (store_step kind (OSet h p v) (store m) (splice p 1 [Some v] (flat (store m)))) as (s' & E & G' & F & R).
  - exact Gs.
  - cbn [legal]. right. eapply flat_ne; eauto.
  - cbn [spec]. rewrite (len_flat cat _ Gs). destruct (Nat.ltb_spec p (cs (store m))); [reflexivity|lia].
  - cbn [exec] in E. apply (drop_inv cat kind) in E as (b & E). exists s', b. split; [exact E|].
    apply cells_of; auto. lia.
Qed.

Lemma set_empty_cells (m : mtx) h a n : mgood m -> 0 < n -> a + n <= cs (store m) ->
  exists s' b, set_empty nm h a (a + n - 1) (store m) = Ok (s', b) /\ cells_set m (with_store m s') a n (repeat None n).
Proof.
  intros G Hn Hp. pose proof (mgood_good cat kind m G) as Gs.
  destruct (store_step kind (OSetEmpty h a (a + n - 1)) (store m) (splice a n (repeat None n) (flat (store m)))) as (s' & E & G' & F & R).
  - exact Gs.
  - cbn [legal]. right. eapply (flat_ne m a); eauto. lia.
  - cbn [spec]. rewrite (len_flat cat _ Gs).
    destruct (Nat.leb_spec a (a + n - 1)); [|lia]. destruct (Nat.ltb_spec (a + n - 1) (cs (store m))); [|lia].
    cbn [andb]. replace (S (a + n - 1) - a) with n by lia. reflexivity.
  - cbn [exec] in E. apply (drop_inv cat kind) in E as (b & E). exists s', b. split; [exact E|].
    apply cells_of; auto. apply repeat_length.
Qed.

Lemma set_range_cells (m : mtx) h a vs : mgood m -> one_type cat vs -> vs <> [] -> a + length vs <= cs (store m) ->
  exists s' b, set_range cat nm h a vs (store m) = Ok (s', b) /\
    cells_set m (with_store m s') a (length vs) (map Some vs).
Proof.
  intros G Ho Hn Hp. pose proof (mgood_good cat kind m G) as Gs.
  destruct (store_step kind (OSetRange h a vs) (store m) (splice a (length vs) (map Some vs) (flat (store m)))) as (s' & E & G' & F & R).
  - exact Gs.
  - exact Ho.
  - cbn [spec]. rewrite (len_flat cat _ Gs). destruct vs as [|v vs]; [congruence|].
    destruct (Nat.leb_spec (a + length (v :: vs)) (cs (store m))); [reflexivity|lia].
  - cbn [exec] in E. apply (drop_inv cat kind) in E as (b & E). exists s', b. split; [exact E|].
    apply cells_of; auto. apply map_length.
Qed.

(** ** Copying rows *)

Lemma one_type_sub (e : eblk) vs :
  (forall v, In v (ev e) -> cat v = ecat e) -> (forall v, In v vs -> In v (ev e)) -> one_type cat vs.
Proof. intros H1 H2 x y Hx Hy. now rewrite (H1 x), (H1 y) by auto. Qed.

Lemma in_section {A} (v : A) n k l : In v (firstn n (skipn k l)) -> In v l.
Proof using.
  intros Hv. rewrite <- (firstn_skipn k l). apply in_or_app. right.
  rewrite <- (firstn_skipn n (skipn k l)). apply in_or_app. now left.
Qed.

Lemma copy_rows_spec src : good src -> forall fuel dst p i k z d lp pi pk pz pd rem,
  spot src p i k z d -> good dst -> spot dst lp pi pk pz pd -> 0 < rem -> rem < fuel ->
  p + rem <= cs src -> lp + rem <= cs dst ->
  (forall v, In (Some v) (firstn rem (skipn p (flat src))) -> kind (cat v) <> None /\ kind (cat v) <> Some KInt) ->
  exists dst' o, copy_rows cat kind fuel src (i, k) (pi, pk) rem dst = Ok (dst', o) /\ good dst' /\
    flat dst' = splice lp rem (firstn rem (skipn p (flat src))) (flat dst) /\ (rch dst -> rch dst') /\
    (o = None -> lp + rem = cs dst).
Proof.
  intros G fuel. induction fuel as [|fuel IH]; intros dst p i k z d lp pi pk pz pd rem Sp Gd Sd Hr Hf Hp Hlp Hk; [lia|].
  cbn [copy_rows]. destruct (spot_left cat kind _ _ _ _ _ _ Sp) as [El Lk]. rewrite El. cbn [bind].
  set (sec := Nat.min (z - k) rem).
  destruct (spot_node cat kind src p i k z d sec G Sp) as (nd & E & En & Ok1 & C & T).
  { lia. } { intros v Hv. apply Hk. eapply in_firstn_le; [exact cat|exact kind| |exact Hv]. lia. }
  rewrite E. cbn [bind]. rewrite (spot_logical cat kind dst lp _ _ _ _ Gd Sd). cbn [bind].
  assert (length (firstn sec (skipn p (flat src))) = sec) as Lsec.
  { rewrite firstn_length, skipn_length, (len_flat cat src G). lia. }
  assert (exists d1 b, match ntype nd with
                       | Some KNum | Some KBool | Some KStr =>
                           let* vs := node_vals nd in set_range cat nm (Some (Some (fst (pi, pk)))) lp vs dst
                       | None => set_empty nm (Some (Some (fst (pi, pk)))) lp (lp + sec - 1) dst
                       | Some KInt => Throw E_general
                       end = Ok (d1, b) /\ good d1 /\ (rch dst -> rch d1) /\
            flat d1 = splice lp sec (firstn sec (skipn p (flat src))) (flat dst)) as (d1 & b & E1 & G1 & R1 & F1).
  { destruct (ntype nd) as [y|] eqn:Ey.
    - (* values *)
      destruct d as [e|]; [|congruence].
      destruct (spot_cat cat kind _ _ _ _ _ _ G Sp) as [Le Ae].
      assert (node_vals nd = Ok (firstn sec (skipn k (ev e)))) as Ev.
      { rewrite En. unfold node_vals. cbn [ndata noff nsize deref bind].
        destruct (Nat.leb_spec (k + sec) (length (ev e))); [reflexivity|lia]. }
      set (vs := firstn sec (skipn k (ev e))) in *.
      assert (map Some vs = firstn sec (skipn p (flat src))) as Em.
      { rewrite <- C, En. reflexivity. }
      assert (length vs = sec) as Lv by (rewrite <- (map_length Some), Em; exact Lsec).
      assert (vs <> []) as Nv by (intros X; rewrite X in Lv; cbn in Lv; lia).
      destruct (store_step kind (OSetRange (Some (Some pi)) lp vs) dst (splice lp sec (map Some vs) (flat dst)))
        as (d1 & E1 & G1 & F1 & R1).
      + exact Gd.
      + cbn [legal]. apply (one_type_sub e); [exact Ae|]. intros v Hv. eapply in_section; eauto.
      + cbn [spec]. rewrite (len_flat cat dst Gd). destruct vs as [|v0 vs']; [congruence|].
        rewrite Lv. destruct (Nat.leb_spec (lp + sec) (cs dst)); [reflexivity|lia].
      + cbn [exec] in E1. apply (drop_inv cat kind) in E1 as (b & E1). exists d1, b.
        split; [|rewrite <- Em; auto]. cbn [fst]. rewrite Ev. cbn [bind].
        assert (y <> KInt) as Hy.
        { destruct Ok1 as (_ & _ & Hx). destruct vs as [|v0 vs'] eqn:Evs; [congruence|].
          assert (In (Some v0) (node_cells nd)) as Hi by (rewrite C, <- Em; left; reflexivity).
          specialize (Hx _ Hi). cbn [kind_of] in Hx. rewrite C in Hi.
          destruct (Hk v0) as [_ K].
          { eapply in_firstn_le; [exact cat|exact kind| |exact Hi]. lia. }
          intros ->. apply K. rewrite Ey in Hx. destruct (kind (cat v0)); cbn in Hx; congruence. }
        destruct y; auto. congruence.
    - subst d. cbn [fst].
      destruct (store_step kind (OSetEmpty (Some (Some pi)) lp (lp + sec - 1)) dst
                 (splice lp sec (repeat None sec) (flat dst))) as (d1 & E1 & G1 & F1 & R1).
      + exact Gd.
      + cbn [legal]. right. intros X. pose proof (len_flat cat dst Gd) as Y. rewrite X in Y. cbn in Y. lia.
      + cbn [spec]. rewrite (len_flat cat dst Gd).
        destruct (Nat.leb_spec lp (lp + sec - 1)); [|lia]. destruct (Nat.ltb_spec (lp + sec - 1) (cs dst)); [|lia].
        cbn [andb]. replace (S (lp + sec - 1) - lp) with sec by lia. reflexivity.
      + cbn [exec] in E1. apply (drop_inv cat kind) in E1 as (b & E1). exists d1, b. split; [exact E1|].
        split; [exact G1|]. split; [exact R1|]. rewrite F1, <- C, En. reflexivity. }
  rewrite E1. cbn [bind].
  assert (size d1 = cs dst) as Hs1.
  { unfold size. rewrite <- (len_flat cat d1 G1), F1, splice_len; rewrite ?(len_flat cat dst Gd); auto. lia. }
  rewrite Hs1.
  destruct (Nat.leb_spec (cs dst) (lp + sec)) as [L|L].
  - assert (sec = rem) as Es by lia. exists d1, None. split; [reflexivity|].
    rewrite <- Es. split; [exact G1|]. split; [exact F1|]. split; [exact R1|]. intros _. lia.
  - destruct (spot_at cat kind d1 (Some (Some b)) (lp + sec) G1) as (qi & qk & qz & qd & Eq & Sq).
    { unfold size in Hs1. lia. }
    rewrite Eq. cbn [bind fst].
    destruct (Nat.eqb_spec (rem - sec) 0) as [Z|Z].
    + assert (sec = rem) as Es by lia. eexists. eexists. split; [reflexivity|].
      rewrite <- Es. split; [exact G1|]. split; [exact F1|]. split; [exact R1|]. discriminate.
    + assert (sec = z - k) as Es by lia.
      destruct (spot_next cat kind src p i k z d G Sp ltac:(lia)) as (z' & d' & Sp'). rewrite <- Es in Sp'.
      destruct (IH d1 _ _ _ _ _ _ _ _ _ _ (rem - sec) Sp' G1 Sq ltac:(lia) ltac:(lia) ltac:(lia)) as (d2 & o & E2 & G2 & F2 & R2 & O2).
      { unfold size in Hs1. lia. }
      { intros v Hv. apply Hk. replace rem with (sec + (rem - sec)) by lia. rewrite firstn_add by (exact cat || exact kind).
        apply in_or_app. right. rewrite skipn_add by (exact cat || exact kind). exact Hv. }
      exists d2, o. split; [exact E2|]. split; [exact G2|]. split; [|split; [auto|]].
      * rewrite F2, F1, splice_splice; auto.
        2: rewrite (len_flat cat dst Gd); lia.
        replace (sec + (rem - sec)) with rem by lia. f_equal.
        transitivity (firstn (sec + (rem - sec)) (skipn p (flat src))); [|f_equal; lia].
        rewrite (firstn_add cat kind). now rewrite (skipn_add cat kind).
      * intros Ho. specialize (O2 Ho). unfold size in Hs1. lia.
Qed.
End P.
