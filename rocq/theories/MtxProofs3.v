(** Proofs about multi_type_matrix, third part: what a program can build, copy,
    transpose, resize. *)
From Coq Require Import List ZArith Lia Bool.
From Verif Require Import Base MtvModel MtvModel2 MtvSpec MtvProofs MtvWrap MtvBridge MtvBridge2
  MtxModel MtxSpec MtxProofs MtxProofs2.
Import ListNotations.

Section P.
Set Default Proof Using "All".
Context {V : Type}.
Variable cat : V -> nat.
Variable kind : nat -> option mty.
Notation st := (@MtvModel.st V).
Notation eblk := (@MtvModel.eblk V).
Notation mtx := (@MtxModel.mtx V).
Notation good := (good cat).
Notation rch := (@reach V cat nm (fun v => v) (fun _ => true) anyop).
Notation mgood := (mgood cat).

Lemma bind_inv {A B} (m : res A) (f : A -> res B) b : bind m f = Ok b -> exists a, m = Ok a /\ f a = Ok b.
Proof using. destruct m; cbn; intros E; try discriminate. eauto. Qed.

(** ** Matrices that a program can build *)

Lemma spec_len (o : op) (l l' : list (option V)) : spec o l = Some l' ->
  match o with OSet _ _ _ | OSetRange _ _ _ | OSetEmpty _ _ _ => True | _ => False end -> length l' = length l.
Proof using.
  destruct o; cbn [spec]; intros E C; try contradiction.
  - destruct (Nat.ltb_spec pos (length l)); [|discriminate]. injection E as <-.
    apply splice_len; auto. lia.
  - destruct vs as [|v vs]; [congruence|]. destruct (Nat.leb_spec (pos + length (v :: vs)) (length l)); [|discriminate].
    injection E as <-. apply splice_len; [auto|]. exact (map_length Some (v :: vs)).
  - destruct (Nat.leb_spec a b); [|discriminate]. destruct (Nat.ltb_spec b (length l)); [|discriminate].
    cbn [andb] in E. assert (l' = splice a (S b - a) (repeat None (S b - a)) l) as -> by (unfold splice, replace_range in *; congruence). apply splice_len; [lia|]. apply repeat_length.
Qed.

(** The stores that the calls of a matrix keep. *)
Definition keep (s s' : st) : Prop := rch s -> rch s' /\ cs s' = cs s.

Lemma keep_refl s : keep s s.
Proof. intros R. auto. Qed.
Lemma keep_trans a b c : keep a b -> keep b c -> keep a c.
Proof. intros H1 H2 R. destruct (H1 R) as [R1 E1], (H2 R1) as [R2 E2]. split; congruence. Qed.

Lemma keep_op (o : op) (s s' : st) : legal cat nm o (flat s) -> exec cat nm o s = Ok s' ->
  match o with OSet _ _ _ | OSetRange _ _ _ | OSetEmpty _ _ _ => True | _ => False end -> keep s s'.
Proof.
  intros L E C R. pose proof (rch_good cat kind s R) as G.
  destruct (store_inv cat kind o s s' G L E) as (l' & Es & G' & F' & R').
  split; [auto|]. rewrite <- (len_flat cat s' G'), <- (len_flat cat s G), F'. apply (spec_len o); auto.
Qed.

Lemma keep_set (s s' : st) h p v b : h = None \/ flat s <> [] -> set cat nm h p v s = Ok (s', b) -> keep s s'.
Proof. intros H E. apply (keep_op (OSet h p v)); [exact H|cbn [exec]; apply (drop_eq cat kind _ _ b E)|exact I]. Qed.
Lemma keep_set_empty (s s' : st) h p q b : h = None \/ flat s <> [] -> set_empty nm h p q s = Ok (s', b) -> keep s s'.
Proof. intros H E. apply (keep_op (OSetEmpty h p q)); [exact H|cbn [exec]; apply (drop_eq cat kind _ _ b E)|exact I]. Qed.
Lemma keep_set_range (s s' : st) h p vs b : one_type cat vs -> set_range cat nm h p vs s = Ok (s', b) -> keep s s'.
Proof. intros H E. apply (keep_op (OSetRange h p vs)); [exact H|cbn [exec]; apply (drop_eq cat kind _ _ b E)|exact I]. Qed.

Lemma pos_at_ne (s : st) i q : good s -> pos_at i s = Ok q -> flat s <> [].
Proof.
  intros (W & _) E. unfold pos_at in E. apply bind_inv in E as (b & E & _). unfold bat in E.
  destruct (bl s) as [|b0 t] eqn:Eb.
  { destruct i; discriminate. }
  unfold flat. rewrite Eb, flatl_cons. cbn [wfl] in W. destruct W as (_ & O & _).
  intros X. apply app_eq_nil in X as [X _]. pose proof (flatb_length cat b0 O) as Y. rewrite X in Y. cbn in Y.
  destruct O. lia.
Qed.

Lemma sub_one (vs ws : list V) : one_type cat vs -> (forall v, In v ws -> In v vs) -> one_type cat ws.
Proof. intros H1 H2 x y Hx Hy. apply H1; auto. Qed.

Lemma first_in {A} (v : A) n l : In v (firstn n l) -> In v l.
Proof using. intros H. rewrite <- (firstn_skipn n l). apply in_or_app. now left. Qed.
Lemma skip_in {A} (v : A) n l : In v (skipn n l) -> In v l.
Proof using. intros H. rewrite <- (firstn_skipn n l). apply in_or_app. now right. Qed.

Definition mkeep (m m' : mtx) : Prop := mgood m -> mgood m' /\ rows m' = rows m /\ cols m' = cols m.

Lemma mkeep_refl m : mkeep m m.
Proof. intros R. auto. Qed.
Lemma mkeep_trans a b c : mkeep a b -> mkeep b c -> mkeep a c.
Proof. intros H1 H2 R. destruct (H1 R) as (R1 & E1 & E2), (H2 R1) as (R2 & E3 & E4). split; [auto|]. split; congruence. Qed.

Lemma mkeep_store (m : mtx) s' : keep (store m) s' -> mkeep m (with_store m s').
Proof.
  intros H [R C]. destruct (H R) as [R' C']. split; [|auto]. split; [exact R'|]. cbn. congruence.
Qed.

Lemma mkeep_on (m m' : mtx) (r : res (st * nat)) :
  on_store m r = Ok m' -> (forall s b, r = Ok (s, b) -> keep (store m) s) -> mkeep m m'.
Proof.
  unfold on_store. intros E H. apply bind_inv in E as ([s b] & E & E2). injection E2 as <-.
  apply mkeep_store. eapply H; eauto.
Qed.

Lemma mkeep_mset (m m' : mtx) i j v : mset cat i j v m = Ok m' -> mkeep m m'.
Proof. intros E. eapply mkeep_on; [exact E|]. intros s b. apply keep_set. now left. Qed.

Lemma mkeep_mset_empty (m m' : mtx) i j : mset_empty i j m = Ok m' -> mkeep m m'.
Proof. intros E. eapply mkeep_on; [exact E|]. intros s b. apply keep_set_empty. now left. Qed.

Lemma for_each_keep {A B} (P : B -> B -> Prop) (f : A -> B -> res B) :
  (forall b, P b b) -> (forall a b c, P a b -> P b c -> P a c) ->
  (forall a b b', f a b = Ok b' -> P b b') -> forall l b b', for_each f l b = Ok b' -> P b b'.
Proof using.
  intros H0 H1 H2 l. induction l as [|a l IH]; cbn [for_each]; intros b b' E.
  - injection E as <-. apply H0.
  - apply bind_inv in E as (b1 & E1 & E2). eapply H1; eauto.
Qed.

Lemma copy_rows_keep src : good src -> forall fuel ps pd rem dst dst' o, 0 < cs dst ->
  copy_rows cat kind fuel src ps pd rem dst = Ok (dst', o) -> keep dst dst'.
Proof.
  intros G fuel. induction fuel as [|fuel IH]; intros ps pd rem dst dst' o H0 E; [discriminate|].
  cbn [copy_rows] in E. apply bind_inv in E as (lft & _ & E). apply bind_inv in E as (nd & End & E).
  apply bind_inv in E as (lp & _ & E). apply bind_inv in E as ([d1 b] & E1 & E).
  intros R. pose proof (rch_good cat kind dst R) as Gd.
  assert (flat dst <> []) as Hne.
  { intros X. pose proof (len_flat cat dst Gd) as Y. rewrite X in Y. cbn in Y. lia. }
  assert (keep dst d1) as K1.
  { assert (forall vs, node_vals nd = Ok vs -> one_type cat vs) as Hvs.
    { intros vs Ev. unfold node_of in End. apply bind_inv in End as (dd & Ed & End).
      apply bind_inv in End as (kk & _ & End). injection End as <-.
      unfold node_vals in Ev. cbn [ndata noff nsize] in Ev. apply bind_inv in Ev as (e & Ee & Ev).
      destruct dd as [e'|]; [|discriminate]. injection Ee as ->.
      destruct (_ <=? _) in Ev; [|discriminate]. injection Ev as <-.
      unfold data_at in Ed. apply bind_inv in Ed as (bb & Eb & Ed). injection Ed as Ed.
      unfold bat in Eb. destruct (nth_error (bl src) (fst ps)) as [b1|] eqn:En; [|discriminate]. injection Eb as ->.
      apply nth_error_split in En as (q & t & Eq & _). destruct G as (W & _). rewrite Eq in W.
      apply (wfl_at cat kind) in W as (_ & [_ O] & _). unfold okd in O. rewrite Ed in O. destruct O as [_ O].
      apply (one_type_sub cat kind e).
      - intros v Hv. unfold all_cat in O. rewrite forallb_forall in O. now apply Nat.eqb_eq, O.
      - intros v Hv. eapply in_section; eauto. }
    destruct (ntype nd) as [[]|].
    - apply bind_inv in E1 as (vs & Ev & E1). eapply keep_set_range; eauto.
    - apply bind_inv in E1 as (vs & Ev & E1). eapply keep_set_range; eauto.
    - apply bind_inv in E1 as (vs & Ev & E1). eapply keep_set_range; eauto.
    - discriminate.
    - eapply keep_set_empty; [|exact E1]. now right. }
  destruct (K1 R) as [R1 C1].
  destruct (_ <=? _) in E; [injection E as <- <-; auto|].
  apply bind_inv in E as (pd' & _ & E). destruct (_ =? _) in E; [injection E as <- <-; auto|].
  apply IH in E; [|lia]. destruct (E R1). split; congruence.
Qed.

Lemma copy_cols_keep (src : mtx) : good (store src) -> forall js r m ps pd m', 0 < cs (store m) ->
  copy_cols cat kind js r m src ps pd = Ok m' -> mkeep m m'.
Proof.
  intros G js. induction js as [|j js IH]; intros r m ps pd m' H0 E; cbn [copy_cols] in E.
  { injection E as <-. apply mkeep_refl. }
  apply bind_inv in E as (p1 & _ & E). apply bind_inv in E as (p2 & _ & E).
  apply bind_inv in E as ([s o] & E1 & E). apply copy_rows_keep in E1; auto.
  pose proof (mkeep_store m s E1) as K.
  destruct o as [[qs qd]|].
  - intros Gm. destruct (E1 (proj1 Gm)) as [_ C]. 
    apply IH in E; [|cbn [with_store store]; lia]. apply (mkeep_trans _ _ _ K E). exact Gm.
  - injection E as <-. exact K.
Qed.

Lemma mcopy_keep (src m m' : mtx) : good (store src) -> mcopy cat kind src m = Ok m' -> mkeep m m'.
Proof.
  intros G E. unfold mcopy in E.
  destruct (mempty m) eqn:M; [injection E as <-; apply mkeep_refl|].
  destruct (mempty src); [injection E as <-; apply mkeep_refl|]. cbn [orb] in E.
  unfold mempty, size in M. apply Nat.eqb_neq in M.
  apply bind_inv in E as (p1 & _ & E). apply bind_inv in E as (p2 & _ & E).
  eapply copy_cols_keep in E; eauto. lia.
Qed.

Lemma copy_vals_keep js : forall r vs p m m', one_type cat vs ->
  copy_vals cat js r vs p m = Ok m' -> mkeep m m'.
Proof.
  induction js as [|j js IH]; intros r vs p m m' Ho E; cbn [copy_vals] in E.
  { injection E as <-. apply mkeep_refl. }
  apply bind_inv in E as (p1 & _ & E). apply bind_inv in E as ([s b] & E1 & E).
  apply keep_set_range in E1.
  2:{ apply (sub_one vs); auto. intros v. apply first_in. }
  apply IH in E. 2:{ apply (sub_one vs); auto. intros v. apply skip_in. }
  eapply mkeep_trans; [|exact E]. now apply mkeep_store.
Qed.

Lemma transpose_cell_keep m i j t t' : transpose_cell cat kind m i j t = Ok t' -> mkeep t t'.
Proof.
  unfold transpose_cell. intros E. apply bind_inv in E as (k & _ & E).
  destruct k as [[]|]; try discriminate.
  4: injection E as <-; apply mkeep_refl.
  all: apply bind_inv in E as (x & _ & E); apply bind_inv in E as (v & _ & E); eapply mkeep_mset; eauto.
Qed.

Lemma mgood_mk g r c : mgood (mk g r c).
Proof. split; [apply r_size|]. cbn [mk store rows cols]. unfold mk_size. destruct (_ =? 0) eqn:E; [|reflexivity]. apply Nat.eqb_eq in E. cbn. congruence. Qed.
Lemma cs_fill g n v : cs (mk_fill cat g n v) = n.
Proof. unfold mk_fill. destruct n; reflexivity. Qed.
Lemma mgood_mk_val g r c v : mgood (mk_val cat g r c v).
Proof. split; [apply r_fill; reflexivity|]. apply cs_fill. Qed.

Lemma mclear_good (m m' : mtx) : mgood m -> mclear m = Ok m' -> mgood m' /\ rows m' = 0 /\ cols m' = 0.
Proof.
  intros G E. unfold mclear in E. apply bind_inv in E as (s & E & E2). injection E2 as <-.
  pose proof (mgood_good cat kind m G) as Gs.
  destruct (store_inv cat kind OClear (store m) s Gs I E) as (l' & Es & G' & F' & R').
  cbn [spec] in Es. injection Es as <-. split; [|auto]. split; [apply R', G|].
  cbn [rows cols store]. rewrite <- (len_flat cat s G'), F'. reflexivity.
Qed.

Lemma mreach_good (m : mtx) : mreach cat kind m -> mgood m.
Proof.
  intros H. induction H as [g|g r c|g r c v|g r c vs m Ho E|g m m' H IH E|g m other m' H IH H2 IH2 E|m o m' H IH L E|src m m' H IH H2 IH2 E].
  - split; [apply (r_size cat nm (fun v => v) (fun _ => true) anyop g 0)|reflexivity].
  - apply mgood_mk.
  - apply mgood_mk_val.
  - unfold mk_vals in E. apply bind_inv in E as (s & E1 & E).
    assert (mgood (MX s r c)) as Gm.
    { split; [eapply r_range; eauto|]. cbn [store rows cols]. unfold mk_range in E1.
      destruct (Nat.eqb_spec (r * c) 0) as [Er|Er]; [injection E1 as <-; rewrite Er; reflexivity|].
      destruct (negb _) in E1; [discriminate|]. 
      destruct vs; [discriminate|]. injection E1 as <-. reflexivity. }
    destruct (_ =? 0) in E; [injection E as <-; exact Gm|].
    apply bind_inv in E as (d & _ & E). apply bind_inv in E as (k & _ & E). injection E as <-. exact Gm.
  - unfold mk_copy in E. apply bind_inv in E as (s & E1 & E). injection E as <-.
    destruct IH as [R C]. split; [eapply r_copy; eauto|]. cbn [store rows cols].
    unfold copy_of in E1. apply bind_inv in E1 as (l & _ & E1). injection E1 as <-. exact C.
  - unfold massign, assign in E. apply bind_inv in E as (s & E1 & E). injection E as <-.
    apply bind_inv in E1 as (t & E1 & E2). injection E2 as <-.
    destruct IH2 as [R C]. split; [eapply r_copy; eauto|]. cbn [store rows cols].
    unfold copy_of in E1. apply bind_inv in E1 as (l & _ & E1). injection E1 as <-. exact C.
  - destruct o; cbn [mexec mlegal] in *.
    + now apply (mkeep_mset m m' i j v).
    + apply bind_inv in E as (p & _ & E). apply (drop_inv cat kind) in E as (p' & E). unfold mset_at in E.
      apply bind_inv in E as (q & Eq & E). apply bind_inv in E as ([s b] & E1 & E).
      apply bind_inv in E as (z & _ & E). destruct (_ <=? _) in E; [|discriminate]. injection E as <- <-.
      unfold get_pos_at in Eq. apply bind_inv in Eq as (q0 & Eq & _).
      apply mkeep_store; [|exact IH]. eapply keep_set; [|exact E1]. right.
      eapply pos_at_ne; eauto. now apply (mgood_good cat kind).
    + now apply (mkeep_mset_empty m m' i j).
    + unfold mset_empty_len in E. destruct (_ =? _) in E; [discriminate|].
      eapply mkeep_on; [exact E| |exact IH]. intros s b. apply keep_set_empty. now left.
    + apply bind_inv in E as (p & _ & E). apply (drop_inv cat kind) in E as (p' & E). unfold mset_empty_at in E.
      apply bind_inv in E as (q & Eq & E). apply bind_inv in E as ([s b] & E1 & E).
      apply bind_inv in E as (z & _ & E). destruct (_ <=? _) in E; [|discriminate]. injection E as <- <-.
      unfold get_pos_at in Eq. apply bind_inv in Eq as (q0 & Eq & _).
      apply mkeep_store; [|exact IH]. eapply keep_set_empty; [|exact E1]. right.
      eapply pos_at_ne; eauto. now apply (mgood_good cat kind).
    + unfold mset_column_empty in E. destruct (rows m); [discriminate|].
      eapply mkeep_on; [exact E| |exact IH]. intros s b. apply keep_set_empty. now left.
    + unfold mset_row_empty in E.
      apply (for_each_keep mkeep _ mkeep_refl mkeep_trans) in E; [now apply E|].
      intros j b b'. apply mkeep_mset_empty.
    + eapply mkeep_on; [exact E| |exact IH]. intros s b. now apply keep_set_range.
    + apply bind_inv in E as (p & _ & E). apply (drop_inv cat kind) in E as (p' & E). unfold mset_range_at in E.
      apply bind_inv in E as (q & Eq & E). apply bind_inv in E as ([s b] & E1 & E).
      apply bind_inv in E as (z & _ & E). destruct (_ <=? _) in E; [|discriminate]. injection E as <- <-.
      apply mkeep_store; [|exact IH]. eapply keep_set_range; eauto.
    + unfold mset_column in E. destruct (_ <=? _) in E.
      * eapply mkeep_on; [exact E| |exact IH]. intros s b. now apply keep_set_range.
      * eapply mkeep_on; [exact E| |exact IH]. intros s b. apply keep_set_range.
        apply (sub_one vs); auto. intros v. apply first_in.
    + unfold transpose in E. apply bind_inv in E as (t & E1 & E). injection E as <-.
      cbn [mswap swap_all snd].
      apply (for_each_keep mkeep _ mkeep_refl mkeep_trans) in E1.
      2:{ intros i b b'. apply (for_each_keep mkeep _ mkeep_refl mkeep_trans). intros j. apply transpose_cell_keep. }
      destruct (E1 (mgood_mk g (cols m) (rows m))) as (G & _). destruct t. exact G.
    + unfold mcopy_vals in E. destruct (_ || _) in E; [now injection E as <-|].
      destruct (negb _) in E; [discriminate|]. destruct (_ || _) in E; [discriminate|].
      apply bind_inv in E as (v0 & _ & E). apply bind_inv in E as (k & _ & E). apply bind_inv in E as (p & _ & E).
      eapply copy_vals_keep; eauto.
    + unfold mresize in E. destruct (_ || _) in E; [eapply mclear_good; eauto|].
      apply bind_inv in E as (t & E1 & E). injection E as <-. cbn [mswap swap_all snd].
      apply mcopy_keep in E1; [|now apply (mgood_good cat kind)].
      destruct (E1 (mgood_mk g r c)) as (G & _). destruct t. exact G.
    + unfold mresize_val in E. destruct (_ || _) in E; [eapply mclear_good; eauto|].
      apply bind_inv in E as (t & E1 & E). injection E as <-. cbn [mswap swap_all snd].
      apply mcopy_keep in E1; [|now apply (mgood_good cat kind)].
      destruct (E1 (mgood_mk_val g r c v)) as (G & _). destruct t. exact G.
    + eapply mclear_good; eauto.
  - apply mcopy_keep in E; [|now apply (mgood_good cat kind)]. now apply E.
Qed.
End P.
