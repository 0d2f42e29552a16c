(** Proofs for copy-on-write: the sharing invariant and its preservation. *)
From Coq Require Import List ZArith Lia Bool Permutation.
From Verif Require Import Base MtvModel MtvModel2 MtvSpec MtvProofs MtvTac MtvWrap MtvBridge MtvBridge2
  MtvIds MtvCow MtvCowSpec.
Import ListNotations.
Open Scope nat_scope.

(** ** Lists *)
Lemma nth_set_same {A} x (a : A) l : x < length l -> nth_error (set_nth x a l) x = Some a.
Proof. revert x; induction l as [|h t IH]; intros [|x]; cbn; intros H; try lia; auto. apply IH. lia. Qed.
Lemma nth_set_other {A} x y (a : A) l : x <> y -> nth_error (set_nth x a l) y = nth_error l y.
Proof. revert x y; induction l as [|h t IH]; intros [|x] [|y]; cbn; intros H; auto; try congruence. Qed.
Lemma nth_set_inv {A} x y (a : A) l b :
  nth_error (set_nth x a l) y = Some b -> (x = y /\ b = a) \/ (x <> y /\ nth_error l y = Some b).
Proof.
  intros H. destruct (Nat.eq_dec x y) as [->|N].
  - left. split; [reflexivity|]. rewrite nth_set_same in H; [congruence|].
    rewrite <- (set_nth_length y a l). apply nth_error_Some. congruence.
  - right. split; [exact N|]. now rewrite nth_set_other in H.
Qed.
Lemma nth_snoc_inv {A} (l : list A) a y b :
  nth_error (l ++ [a]) y = Some b -> (y = length l /\ b = a) \/ (y < length l /\ nth_error l y = Some b).
Proof.
  intros H. destruct (Nat.lt_ge_cases y (length l)) as [L|L].
  - right. split; [exact L|]. now rewrite nth_error_app1 in H.
  - rewrite nth_error_app2 in H by exact L. destruct (y - length l) as [|k] eqn:E; cbn in H.
    + left. split; [lia|congruence].
    + destruct k; discriminate.
Qed.
Lemma nth_snoc_old {A} (l : list A) a y b : nth_error l y = Some b -> nth_error (l ++ [a]) y = Some b.
Proof. intros H. rewrite nth_error_app1; [exact H|]. apply nth_error_Some. congruence. Qed.
Lemma nth_snoc_new {A} (l : list A) a : nth_error (l ++ [a]) (length l) = Some a.
Proof. rewrite nth_error_app2 by lia. now rewrite Nat.sub_diag. Qed.
Lemma set_nth_id {A} x (a : A) l : nth_error l x = Some a -> set_nth x a l = l.
Proof. revert x; induction l as [|h t IH]; intros [|x]; cbn; intros H; try congruence. f_equal; auto. Qed.
Lemma set_nth_snoc {A} x (a b : A) l : x < length l -> set_nth x a (l ++ [b]) = set_nth x a l ++ [b].
Proof. revert x; induction l as [|h t IH]; intros [|x]; cbn; intros H; try lia; auto. f_equal. apply IH. lia. Qed.
Lemma set_nth_last {A} (a b : A) l : set_nth (length l) a (l ++ [b]) = l ++ [a].
Proof. apply set_nth_app. Qed.
Lemma set_nth_twice {A} x (a b : A) l : set_nth x a (set_nth x b l) = set_nth x a l.
Proof. revert x; induction l as [|h t IH]; intros [|x]; cbn; auto. f_equal; auto. Qed.
Lemma set_nth_over {A} x (a : A) l : length l <= x -> set_nth x a l = l.
Proof. revert x; induction l as [|h t IH]; intros [|x]; cbn; intros H; auto; try lia. f_equal. apply IH. lia. Qed.

Fixpoint lsum {A} (f : A -> nat) (l : list A) : nat :=
  match l with [] => 0 | x :: t => f x + lsum f t end.
Lemma lsum_app {A} (f : A -> nat) a b : lsum f (a ++ b) = lsum f a + lsum f b.
Proof. induction a as [|x t IH]; cbn; [reflexivity|]. rewrite IH. lia. Qed.
Lemma lsum_set {A} (f : A -> nat) x a b l :
  nth_error l x = Some b -> lsum f (set_nth x a l) + f b = lsum f l + f a.
Proof.
  revert x; induction l as [|h t IH]; intros [|x]; cbn; intros H; try discriminate.
  - injection H as <-. lia.
  - specialize (IH x H). lia.
Qed.

(** ** Addresses *)
Lemma same_addr_eq a b : same_addr a b = true <-> a = b.
Proof.
  unfold same_addr. destruct a as [a1 a2], b as [b1 b2]; cbn.
  rewrite andb_true_iff, !Nat.eqb_eq. split; [intros []; congruence|intros [= -> ->]; auto].
Qed.
Lemma mem_In a l : mem a l = true <-> In a l.
Proof.
  unfold mem. rewrite existsb_exists. split.
  - intros (x & H & E). apply same_addr_eq in E. now subst.
  - intros H. exists a. split; [exact H|]. now apply same_addr_eq.
Qed.
Lemma some_dead_false l d : (forall a, In a l -> ~ In a d) -> existsb (fun a => mem a d) l = false.
Proof.
  intros H. apply not_true_is_false. rewrite existsb_exists. intros (a & Ha & M).
  apply mem_In in M. eapply H; eauto.
Qed.

Section P.
Context {V : Type}.
Variable cat : V -> nat.
Variable managed : nat -> bool.
Variable clone : V -> V.
Variable cloneable copyable : nat -> bool.
Notation eblk := (@eblk V).
Notation blk := (@blk V).
Notation st := (@st V).
Notation vec := (@vec V).
Notation world := (@world V).

Lemma alias_out old new (e : eblk) : ~ In (eid e) (addrs old) -> alias old new e = e.
Proof.
  intros H. unfold alias. destruct (mem (eid e) (addrs old)) eqn:E; [|reflexivity].
  apply mem_In in E. contradiction.
Qed.
Lemma alias_st_out old new (s : st) :
  (forall a, In a (addrs (blocks s)) -> ~ In a (addrs old)) -> alias_st old new s = s.
Proof.
  intros H. unfold alias_st. destruct s as [l c n t a r f]. cbn [bl] in *. unfold with_bl. cbn [bl cs nid tag acq rel freed].
  f_equal. unfold blocks in H. cbn [bl] in H. induction l as [|b l IH]; [reflexivity|]. cbn [map].
  rewrite IH by (intros a0 Ha; apply H; cbn [flat_map]; unfold addrs in *; rewrite map_app; apply in_or_app; auto).
  f_equal. destruct b as [p z [e|]]; cbn [bp bs bd option_map]; [|reflexivity].
  rewrite alias_out; [reflexivity|]. apply H. cbn. auto.
Qed.
Lemma alias_list_out old new (es : list eblk) :
  (forall a, In a (addrs es) -> ~ In a (addrs old)) -> map (alias old new) es = es.
Proof.
  intros H. induction es as [|e es IH]; [reflexivity|]. cbn [map]. rewrite IH by (intros a Ha; apply H; cbn; auto).
  f_equal. apply alias_out, H. cbn. auto.
Qed.

(** ** The sharing invariant *)
Definition vat (w : world) (x : nat) (v : vec) : Prop := nth_error (vecs w) x = Some (Some v).
Definition sat (w : world) (h : nat) (es : list eblk) : Prop := nth_error (stores w) h = Some (Some es).
Definition adr (v : vec) := addrs (blocks (body v)).
Definition disj (a b : list (nat * nat)) : Prop := forall i, In i a -> In i b -> False.

Record InvB (k : option nat) (w : world) : Prop := {
  ib_vec : forall x v, vat w x v -> forall a, In a (adr v) -> fst a < wtag w /\ ~ In a (dead w);
  ib_store : forall h es, sat w h es -> forall a, In a (addrs es) -> fst a < wtag w /\ ~ In a (dead w);
  ib_dead : forall a, In a (dead w) -> fst a < wtag w;
  ib_own : forall x y v u, vat w x v -> vat w y u -> x <> y -> store v = None -> disj (adr v) (adr u);
  ib_lend : forall h es y u, sat w h es -> vat w y u -> store u <> Some h -> disj (addrs es) (adr u);
  ib_sto : forall h h' es es', sat w h es -> sat w h' es' -> h <> h' -> disj (addrs es) (addrs es');
  ib_ref : forall x v h, vat w x v -> store v = Some h -> sat w h (blocks (body v));
  ib_used : forall h es, sat w h es -> k <> Some h -> exists x v, vat w x v /\ store v = Some h }.
Definition Inv := InvB None.

Lemma vat_lt w x v : vat w x v -> x < length (vecs w).
Proof. intros H. apply nth_error_Some. unfold vat in H. congruence. Qed.
Lemma vat_fun w x v u : vat w x v -> vat w x u -> v = u.
Proof. unfold vat. congruence. Qed.
Lemma fetch_ok k w x v : InvB k w -> vat w x v -> fetch x w = Ok v.
Proof.
  intros I H. unfold fetch. rewrite H. rewrite some_dead_false; [reflexivity|].
  intros a Ha. now apply (ib_vec _ _ I x v H).
Qed.

(** ** Ownership account *)
Definition cv (p : V -> bool) (u : option vec) : nat :=
  match u with
  | Some v => cnt p (freed (body v)) +
              match store v with None => cnt p (owned managed (blocks (body v))) | Some _ => 0 end
  | None => 0
  end.
Definition cst (p : V -> bool) (o : option (list eblk)) : nat :=
  match o with Some es => cnt p (owned managed es) | None => 0 end.
Definition T (p : V -> bool) (w : world) : nat :=
  cnt p (gone w) + lsum (cv p) (vecs w) + lsum (cst p) (stores w).

Lemma owned_blocks (s : st) : owned managed (blocks s) = mo managed (bl s).
Proof.
  unfold owned, blocks, mo. induction (bl s) as [|b l IH]; [reflexivity|]. cbn [flat_map].
  rewrite flat_map_app, IH. f_equal. unfold mob. destruct (bd b); cbn; [apply app_nil_r|reflexivity].
Qed.
Lemma owned_flat (s : st) : good cat s -> owned managed (blocks s) = objects cat managed (flat s).
Proof. intros H. rewrite owned_blocks. symmetry. now apply objects_flat. Qed.

(** ** Events *)
Definition ebal (v : vec) : Prop :=
  canon (body v) /\ forall p, cnt p (acq (body v)) = cnt p (rel (body v)) + cnt p (refs (bl (body v))).
Definition Ebal (w : world) : Prop := forall x v, vat w x v -> ebal v.

(** ** Abstraction *)
Definition flag (v : vec) : bool := match store v with Some _ => true | None => false end.
Definition crel (c : @cell V) (u : option vec) : Prop :=
  match c, u with
  | Dead, None => True
  | Moved, Some v => bl (body v) = [] /\ store v = None
  | Live l sh, Some v => good cat (body v) /\ flat (body v) = l /\ sh = flag v
  | _, _ => False
  end.
Definition Abs (w : world) (a : list cell) : Prop := Forall2 crel a (vecs w).

Lemma Abs_len w a : Abs w a -> length a = length (vecs w).
Proof. unfold Abs. intros H. induction H; cbn; auto. Qed.
Lemma F2_nth {A B} (R : A -> B -> Prop) l l' x d : Forall2 R l l' -> x < length l ->
  exists b, nth_error l' x = Some b /\ R (nth x l d) b.
Proof.
  intros H. revert x. induction H as [|a b l l' Hab Hl IH]; intros [|x] L; cbn in *; try lia; eauto.
  apply IH. lia.
Qed.
Lemma F2_set {A B} (R : A -> B -> Prop) l l' x a b :
  Forall2 R l l' -> R a b -> Forall2 R (set_nth x a l) (set_nth x b l').
Proof.
  intros H Hab. revert x. induction H as [|a0 b0 l l' H0 Hl IH]; intros [|x]; cbn; auto.
Qed.
Lemma F2_snoc {A B} (R : A -> B -> Prop) l l' a b :
  Forall2 R l l' -> R a b -> Forall2 R (l ++ [a]) (l' ++ [b]).
Proof. intros H Hab. apply Forall2_app; auto. Qed.

Lemma Abs_at w a x : Abs w a -> cell_at x a <> Dead ->
  exists v, vat w x v /\ crel (cell_at x a) (Some v) /\ x < length a.
Proof.
  intros H N. destruct (Nat.lt_ge_cases x (length a)) as [L|L].
  - destruct (F2_nth crel a (vecs w) x Dead H L) as ([v|] & E & R).
    + exists v. split; [exact E|]. split; [exact R|exact L].
    + exfalso. fold (cell_at x a) in R. destruct (cell_at x a); cbn in R; auto.
  - exfalso. apply N. unfold cell_at. apply nth_overflow. lia.
Qed.
Lemma Abs_live w a x : Abs w a -> live (cell_at x a) ->
  exists v, vat w x v /\ cell_at x a = Live (flat (body v)) (flag v) /\ good cat (body v) /\ x < length a.
Proof.
  intros H N. destruct (Abs_at w a x H) as (v & E & R & L).
  { destruct (cell_at x a); cbn in N; congruence || contradiction. }
  exists v. split; [exact E|]. destruct (cell_at x a) as [l sh| |]; cbn in N, R; try contradiction.
  destruct R as (G & <- & ->). auto.
Qed.

(** ** Letting go of a shared object *)
Lemma uses_true h (u : option vec) : uses h u = true -> exists v, u = Some v /\ store v = Some h.
Proof.
  destruct u as [v|]; cbn; [|discriminate]. destruct (store v) as [k|] eqn:E; [|discriminate].
  intros H. apply Nat.eqb_eq in H. subst. eauto.
Qed.

Lemma let_go_ok h w es :
  InvB (Some h) w -> sat w h es ->
  exists w', let_go managed h w = Ok w' /\ Inv w' /\ vecs w' = vecs w /\ wtag w' = wtag w /\
    forall p, T p w' = T p w.
Proof.
  intros I S. unfold let_go. destruct (existsb (uses h) (vecs w)) eqn:E.
  - exists w. split; [reflexivity|]. split; [|auto]. destruct I; constructor; auto.
    intros k es' Hk _. destruct (Nat.eq_dec k h) as [->|N]; [|apply (ib_used0 k es' Hk); congruence].
    apply existsb_exists in E as (u & Hu & E). apply uses_true in E as (v & -> & E).
    apply In_nth_error in Hu as (x & Hx). exists x, v. auto.
  - unfold sat in S. rewrite S.
    rewrite some_dead_false by (intros a Ha; now apply (ib_store _ _ I h es S)).
    eexists. split; [reflexivity|].
    assert (forall x v, vat w x v -> store v <> Some h) as NU.
    { intros x v Hx Hs. assert (existsb (uses h) (vecs w) = true); [|congruence].
      apply existsb_exists. exists (Some v). split; [eapply nth_error_In; exact Hx|].
      cbn. rewrite Hs. apply Nat.eqb_refl. }
    split; [|split; [reflexivity|split; [reflexivity|]]].
    + assert (forall k es', nth_error (set_nth h None (stores w)) k = Some (Some es') -> k <> h /\ sat w k es') as SI.
      { intros k es' Hk. apply nth_set_inv in Hk as [[_ Hk]|[N Hk]]; [discriminate|]. split; [congruence|exact Hk]. }
      constructor; cbn [vecs stores dead gone wtag]; unfold vat, sat; cbn [vecs stores].
      * intros x v Hx a Ha. destruct (ib_vec _ _ I x v Hx a Ha) as [H1 H2]. split; [exact H1|].
        intros Hd. apply in_app_or in Hd as [Hd|Hd]; [auto|].
        apply (ib_lend _ _ I h es x v S Hx (NU x v Hx) a); auto.
      * intros k es' Hk a Ha. apply SI in Hk as [N Hk]. destruct (ib_store _ _ I k es' Hk a Ha) as [H1 H2].
        split; [exact H1|]. intros Hd. apply in_app_or in Hd as [Hd|Hd]; [auto|].
        apply (ib_sto _ _ I h k es es' S Hk (not_eq_sym N) a); auto.
      * intros a Ha. apply in_app_or in Ha as [Ha|Ha]; [now apply (ib_dead _ _ I)|].
        now apply (ib_store _ _ I h es S).
      * apply (ib_own _ _ I).
      * intros k es' y u Hk. apply SI in Hk as [_ Hk]. apply (ib_lend _ _ I); auto.
      * intros k k' e e' Hk Hk'. apply SI in Hk as [_ Hk]. apply SI in Hk' as [_ Hk'].
        apply (ib_sto _ _ I); auto.
      * intros x v k Hx Hs. pose proof (ib_ref _ _ I x v k Hx Hs) as Hk. unfold sat in Hk.
        rewrite nth_set_other; [exact Hk|]. intros ->. now apply (NU x v Hx).
      * intros k es' Hk _. apply SI in Hk as [N Hk]. apply (ib_used _ _ I k es' Hk). congruence.
    + intros p. unfold T. cbn [gone vecs stores]. rewrite cnt_app.
      pose proof (lsum_set (cst p) h None (Some es) (stores w) S) as L. cbn [cst] in L. lia.
Qed.

(** Outcome of a statement. *)
Definition Done (w w' : world) (a' : list cell) (ins outs : list V) (lk ev : Prop) : Prop :=
  Inv w' /\ Abs w' a' /\ (lk -> forall p, T p w' + cnt p outs = T p w + cnt p ins) /\
  (Ebal w -> ev -> Ebal w').

(** ** Changing one container that nobody else can see *)

(** Replace the container [x] by one with new storage of its own. *)
Lemma replace_own k w x u v' t' :
  InvB k w -> nth_error (vecs w) x = Some u -> wtag w <= t' ->
  store v' = None ->
  (forall a, In a (adr v') -> fst a < t' /\ ~ In a (dead w) /\
     (wtag w <= fst a \/ exists v, u = Some v /\ store v = None /\ In a (adr v))) ->
  (forall v, u = Some v -> store v = None \/ exists h, k = Some h /\ store v = Some h) ->
  InvB k (WD (set_nth x (Some v') (vecs w)) (stores w) (dead w) (gone w) t').
Proof.
  intros I Hx Ht Hs Ha Hu.
  assert (x < length (vecs w)) as Lx by (apply nth_error_Some; congruence).
  assert (forall y z, nth_error (set_nth x (Some v') (vecs w)) y = Some (Some z) ->
            (y = x /\ z = v') \/ (y <> x /\ vat w y z)) as VI.
  { intros y z Hy. apply nth_set_inv in Hy as [[E1 E2]|[E1 E2]]; [left; split; congruence|right; split; auto]. }
  assert (forall y z, y <> x -> vat w y z -> disj (adr v') (adr z)) as DV.
  { intros y z N Hz a H1 H2. destruct (Ha a H1) as (_ & _ & [L|(v & -> & Sv & Av)]).
    - pose proof (proj1 (ib_vec _ _ I y z Hz a H2)). lia.
    - exact (ib_own _ _ I x y v z Hx Hz (not_eq_sym N) Sv a Av H2). }
  assert (forall h es, sat w h es -> disj (addrs es) (adr v')) as DS.
  { intros h es Hes a H2 H1. destruct (Ha a H1) as (_ & _ & [L|(v & -> & Sv & Av)]).
    - pose proof (proj1 (ib_store _ _ I h es Hes a H2)). lia.
    - refine (ib_lend _ _ I h es x v Hes Hx _ a H2 Av). rewrite Sv. discriminate. }
  constructor; unfold vat, sat; cbn [vecs stores dead gone wtag].
  - intros y z Hy a Hz. apply VI in Hy as [[-> ->]|[N Hy]].
    + destruct (Ha a Hz) as (H1 & H2 & _). auto.
    + destruct (ib_vec _ _ I y z Hy a Hz). split; [lia|auto].
  - intros h es Hh a Hz. destruct (ib_store _ _ I h es Hh a Hz). split; [lia|auto].
  - intros a Hz. pose proof (ib_dead _ _ I a Hz). lia.
  - intros y y' z z' Hy Hy' N Sz. apply VI in Hy as [[-> ->]|[N1 Hy]].
    + apply VI in Hy' as [[-> ->]|[N2 Hy']]; [congruence|]. now apply (DV y').
    + apply VI in Hy' as [[-> ->]|[N2 Hy']].
      * intros a H1 H2. exact (DV y z N1 Hy a H2 H1).
      * now apply (ib_own _ _ I y y').
  - intros h es y z Hh Hy Sz. apply VI in Hy as [[-> ->]|[N Hy]]; [now apply (DS h)|now apply (ib_lend _ _ I h es y)].
  - apply (ib_sto _ _ I).
  - intros y z h Hy Sz. apply VI in Hy as [[-> ->]|[N Hy]]; [congruence|]. now apply (ib_ref _ _ I y).
  - intros h es Hh N. destruct (ib_used _ _ I h es Hh N) as (y & z & Hy & Sz). exists y, z. split; [|exact Sz].
    destruct (Nat.eq_dec y x) as [->|Ny].
    + exfalso. unfold vat in Hy. rewrite Hx in Hy. injection Hy as ->.
      destruct (Hu z eq_refl) as [E|(h' & E1 & E2)]; congruence.
    + now rewrite nth_set_other by auto.
Qed.

Lemma weaken k w : Inv w -> InvB k w.
Proof. intros []; constructor; auto. intros; eapply ib_used0; eauto. discriminate. Qed.

Lemma replace_none k w x u g :
  InvB k w -> nth_error (vecs w) x = Some u ->
  (forall v, u = Some v -> store v = None \/ exists h, k = Some h /\ store v = Some h) ->
  InvB k (WD (set_nth x None (vecs w)) (stores w) (dead w) g (wtag w)).
Proof.
  intros I Hx Hu.
  assert (x < length (vecs w)) as Lx by (apply nth_error_Some; congruence).
  assert (forall y z, nth_error (set_nth x None (vecs w)) y = Some (Some z) -> y <> x /\ vat w y z) as VI.
  { intros y z Hy. apply nth_set_inv in Hy as [[E1 E2]|[E1 E2]]; [discriminate|split; auto]. }
  constructor; unfold vat, sat; cbn [vecs stores dead gone wtag].
  - intros y z Hy. apply VI in Hy as [_ Hy]. now apply (ib_vec _ _ I y).
  - apply (ib_store _ _ I).
  - apply (ib_dead _ _ I).
  - intros y y' z z' Hy Hy'. apply VI in Hy as [_ Hy]. apply VI in Hy' as [_ Hy']. now apply (ib_own _ _ I).
  - intros h es y z Hh Hy. apply VI in Hy as [_ Hy]. now apply (ib_lend _ _ I h es y).
  - apply (ib_sto _ _ I).
  - intros y z h Hy. apply VI in Hy as [_ Hy]. now apply (ib_ref _ _ I y).
  - intros h es Hh N. destruct (ib_used _ _ I h es Hh N) as (y & z & Hy & Sz). exists y, z. split; [|exact Sz].
    destruct (Nat.eq_dec y x) as [->|Ny].
    + exfalso. unfold vat in Hy. rewrite Hx in Hy. injection Hy as ->.
      destruct (Hu z eq_refl) as [E|(h' & E1 & E2)]; congruence.
    + now rewrite nth_set_other by auto.
Qed.

Lemma dead_ext k w D :
  InvB k w ->
  (forall a, In a D -> fst a < wtag w /\ (forall x v, vat w x v -> ~ In a (adr v)) /\
     (forall h es, sat w h es -> ~ In a (addrs es))) ->
  InvB k (WD (vecs w) (stores w) (dead w ++ D) (gone w) (wtag w)).
Proof.
  intros I HD. constructor; unfold vat, sat; cbn [vecs stores dead gone wtag].
  - intros y z Hy a Ha. destruct (ib_vec _ _ I y z Hy a Ha) as [H1 H2]. split; [exact H1|].
    intros Hd. apply in_app_or in Hd as [Hd|Hd]; [auto|]. destruct (HD a Hd) as (_ & H & _). eapply H; eauto.
  - intros y z Hy a Ha. destruct (ib_store _ _ I y z Hy a Ha) as [H1 H2]. split; [exact H1|].
    intros Hd. apply in_app_or in Hd as [Hd|Hd]; [auto|]. destruct (HD a Hd) as (_ & _ & H). eapply H; eauto.
  - intros a Ha. apply in_app_or in Ha as [Ha|Ha]; [now apply (ib_dead _ _ I)|now apply HD].
  - apply (ib_own _ _ I).
  - apply (ib_lend _ _ I).
  - apply (ib_sto _ _ I).
  - apply (ib_ref _ _ I).
  - apply (ib_used _ _ I).
Qed.

Lemma tick_ok k w : InvB k w -> InvB k (tick w).
Proof.
  intros I. constructor; unfold vat, sat, tick; cbn [vecs stores dead gone wtag].
  - intros y z Hy a Ha. destruct (ib_vec _ _ I y z Hy a Ha). split; [lia|auto].
  - intros y z Hy a Ha. destruct (ib_store _ _ I y z Hy a Ha). split; [lia|auto].
  - intros a Ha. pose proof (ib_dead _ _ I a Ha). lia.
  - apply (ib_own _ _ I).
  - apply (ib_lend _ _ I).
  - apply (ib_sto _ _ I).
  - apply (ib_ref _ _ I).
  - apply (ib_used _ _ I).
Qed.

(** A call on a container that nobody shares does not show in the others. *)
Lemma write_eq k w x v s' :
  InvB k w -> vat w x v -> store v = None ->
  write x v s' w =
  WD (set_nth x (Some (VEC s' None)) (vecs w)) (stores w)
     (dead w ++ filter (fun a => negb (mem a (addrs (blocks s')))) (adr v)) (gone w) (wtag w).
Proof.
  intros I Hx Sv. unfold write. rewrite Sv. fold (adr v). f_equal.
  - assert (forall y u, y <> x -> nth_error (vecs w) y = Some u ->
      option_map (fun u => VEC (alias_st (blocks (body v)) (blocks s') (body u)) (store u)) u = u) as Hid.
    { intros y [u|] N Hy; [|reflexivity]. cbn [option_map]. rewrite alias_st_out; [now destruct u|].
      intros a Ha Ha'. exact (ib_own _ _ I x y v u Hx Hy (not_eq_sym N) Sv a Ha' Ha). }
    set (f := option_map _) in *. clearbody f. set (n := Some (VEC s' None)). clearbody n.
    clear Hx Sv I. revert x Hid. induction (vecs w) as [|u l IH]; intros x Hid; [now destruct x|].
    destruct x as [|x]; cbn [map set_nth].
    + f_equal. clear IH. assert (forall y u, nth_error l y = Some u -> f u = u) as H.
      { intros y u' Hy. apply (Hid (S y) u'); [lia|exact Hy]. }
      clear Hid. induction l as [|u' l IH]; [reflexivity|]. cbn [map]. f_equal.
      * apply (H 0). reflexivity.
      * apply IH. intros y. apply (H (S y)).
    + f_equal.
      * apply (Hid 0); [lia|reflexivity].
      * apply IH. intros y u' N Hy. apply (Hid (S y)); [lia|exact Hy].
  - assert (forall h es, sat w h es -> map (alias (blocks (body v)) (blocks s')) es = es) as Hid.
    { intros h es Hh. apply alias_list_out. intros a Ha Ha'.
      refine (ib_lend _ _ I h es x v Hh Hx _ a Ha Ha'). rewrite Sv. discriminate. }
    unfold sat in Hid. clear - Hid. induction (stores w) as [|o l IH]; [reflexivity|]. cbn [map]. f_equal.
    + destruct o as [es|]; [|reflexivity]. cbn. f_equal. apply (Hid 0). reflexivity.
    + apply IH. intros h es. apply (Hid (S h)).
Qed.

Lemma write_inv w x v s' :
  Inv w -> vat w x v -> store v = None ->
  (forall a, In a (addrs (blocks s')) -> In a (adr v) \/ fst a = wtag w) ->
  Inv (write x v s' (tick w)).
Proof.
  intros I Hx Sv Ha. rewrite (write_eq None (tick w) x v s' (tick_ok _ _ I) Hx Sv).
  unfold tick. cbn [vecs stores dead gone wtag].
  set (D := filter _ _).
  assert (InvB None (WD (set_nth x (Some (VEC s' None)) (vecs w)) (stores w) (dead w) (gone w) (S (wtag w)))) as J.
  { eapply replace_own; [exact I|exact Hx|lia|reflexivity| |].
    - intros a Hin. destruct (Ha a Hin) as [Hold|Hnew].
      + destruct (ib_vec _ _ I x v Hx a Hold) as [H1 H2]. split; [lia|]. split; [exact H2|]. right. eauto.
      + split; [lia|]. split; [|left; lia]. intros Hd. pose proof (ib_dead _ _ I a Hd). lia.
    - intros v0 [= <-]. auto. }
  apply (dead_ext _ _ D) in J; [exact J|]. cbn [wtag]. intros a HaD. apply filter_In in HaD as [Hold Hm].
  destruct (ib_vec _ _ I x v Hx a Hold) as [H1 H2]. split; [lia|]. split.
  - unfold vat. cbn [vecs]. intros y u Hy Hin. apply nth_set_inv in Hy as [[-> Hy]|[N Hy]].
    + injection Hy as ->. unfold adr in Hin. cbn [body] in Hin. apply mem_In in Hin. rewrite Hin in Hm. discriminate.
    + exact (ib_own _ _ I x y v u Hx Hy N Sv a Hold Hin).
  - unfold sat. cbn [stores]. intros h es Hh Hin. refine (ib_lend _ _ I h es x v Hh Hx _ a Hin Hold).
    rewrite Sv. discriminate.
Qed.

(** ** Adding, swapping *)
Lemma add_own w v' t' :
  Inv w -> store v' = None -> wtag w <= t' ->
  (forall a, In a (adr v') -> wtag w <= fst a < t') ->
  Inv (WD (vecs w ++ [Some v']) (stores w) (dead w) (gone w) t').
Proof.
  intros I Sv Ht Ha.
  assert (forall y z, nth_error (vecs w ++ [Some v']) y = Some (Some z) ->
            (y = length (vecs w) /\ z = v') \/ (y < length (vecs w) /\ vat w y z)) as VI.
  { intros y z Hy. apply nth_snoc_inv in Hy as [[E1 E2]|[E1 E2]]; [left; split; congruence|right; split; auto]. }
  constructor; unfold vat, sat; cbn [vecs stores dead gone wtag].
  - intros y z Hy a Hz. apply VI in Hy as [[-> ->]|[L Hy]].
    + pose proof (Ha a Hz). split; [lia|]. intros Hd. pose proof (ib_dead _ _ I a Hd). lia.
    + destruct (ib_vec _ _ I y z Hy a Hz). split; [lia|auto].
  - intros h es Hh a Hz. destruct (ib_store _ _ I h es Hh a Hz). split; [lia|auto].
  - intros a Hz. pose proof (ib_dead _ _ I a Hz). lia.
  - intros y y' z z' Hy Hy' N Sz. apply VI in Hy as [[-> ->]|[N1 Hy]].
    + apply VI in Hy' as [[-> ->]|[N2 Hy']]; [congruence|].
      intros a H1 H2. pose proof (Ha a H1). pose proof (proj1 (ib_vec _ _ I y' z' Hy' a H2)). lia.
    + apply VI in Hy' as [[-> ->]|[N2 Hy']].
      * intros a H1 H2. pose proof (Ha a H2). pose proof (proj1 (ib_vec _ _ I y z Hy a H1)). lia.
      * now apply (ib_own _ _ I y y').
  - intros h es y z Hh Hy Sz. apply VI in Hy as [[-> ->]|[N Hy]]; [|now apply (ib_lend _ _ I h es y)].
    intros a H1 H2. pose proof (Ha a H2). pose proof (proj1 (ib_store _ _ I h es Hh a H1)). lia.
  - apply (ib_sto _ _ I).
  - intros y z h Hy Sz. apply VI in Hy as [[-> ->]|[N Hy]]; [congruence|]. now apply (ib_ref _ _ I y).
  - intros h es Hh N. destruct (ib_used _ _ I h es Hh N) as (y & z & Hy & Sz). exists y, z. split; [|exact Sz].
    now apply nth_snoc_old.
Qed.

Lemma add_shared w x u s' h :
  Inv w -> vat w x u -> store u = Some h -> blocks s' = blocks (body u) ->
  Inv (add (VEC s' (Some h)) w).
Proof.
  intros I Hx Su Hb. unfold add.
  assert (forall y z, nth_error (vecs w ++ [Some (VEC s' (Some h))]) y = Some (Some z) ->
            exists y' u', vat w y' u' /\ store u' = store z /\ blocks (body u') = blocks (body z) /\
              (y < length (vecs w) -> y' = y) /\ (length (vecs w) <= y -> y' = x /\ store z = Some h)) as VI.
  { intros y z Hy. apply nth_snoc_inv in Hy as [[-> E2]|[E1 E2]].
    - injection E2 as ->. exists x, u. cbn [store body]. repeat split; auto. lia.
    - exists y, z. repeat split; auto; lia. }
  constructor; unfold vat, sat; cbn [vecs stores dead gone wtag].
  - intros y z Hy a Hz. destruct (VI y z Hy) as (y' & u' & H1 & H2 & H3 & _).
    apply (ib_vec _ _ I y' u' H1). unfold adr. now rewrite H3.
  - apply (ib_store _ _ I).
  - apply (ib_dead _ _ I).
  - intros y y' z z' Hy Hy' N Sz.
    destruct (VI y z Hy) as (y1 & u1 & H1 & H2 & H3 & H4 & H5).
    destruct (VI y' z' Hy') as (y2 & u2 & K1 & K2 & K3 & K4 & K5).
    destruct (Nat.lt_ge_cases y (length (vecs w))) as [L|L]; [|destruct (H5 L); congruence].
    unfold adr. rewrite <- H3, <- K3. apply (ib_own _ _ I y1 y2); auto; [|congruence].
    destruct (Nat.lt_ge_cases y' (length (vecs w))) as [L'|L']; [rewrite H4, K4 by auto; auto|].
    intros E. assert (y1 = x) as Ey by (destruct (K5 L'); congruence).
    subst y1. rewrite Ey in H1. pose proof (vat_fun _ _ _ _ H1 Hx). congruence.
  - intros k es y z Hh Hy Sz. destruct (VI y z Hy) as (y1 & u1 & H1 & H2 & H3 & H4 & H5).
    unfold adr. rewrite <- H3. apply (ib_lend _ _ I k es y1); auto. congruence.
  - apply (ib_sto _ _ I).
  - intros y z k Hy Sz. destruct (VI y z Hy) as (y1 & u1 & H1 & H2 & H3 & H4 & H5).
    rewrite <- H3. apply (ib_ref _ _ I y1); auto. congruence.
  - intros k es Hh N. destruct (ib_used _ _ I k es Hh N) as (y & z & Hy & Sz). exists y, z. split; [|exact Sz].
    now apply nth_snoc_old.
Qed.

Lemma swap_inv w x y v u :
  Inv w -> vat w x v -> vat w y u -> Inv (put y (Some v) (put x (Some u) w)).
Proof using managed cloneable copyable.
  intros I Hx Hy. unfold put. cbn [vecs stores dead gone wtag].
  set (pi := fun z => if z =? y then x else if z =? x then y else z).
  assert (forall z t, nth_error (set_nth y (Some v) (set_nth x (Some u) (vecs w))) z = Some (Some t) <-> vat w (pi z) t) as VI.
  { intros z t. unfold pi. destruct (Nat.eqb_spec z y) as [->|N1].
    - rewrite nth_set_same by (rewrite set_nth_length; eapply vat_lt; eauto). unfold vat in *. rewrite Hx. tauto.
    - rewrite nth_set_other by auto. destruct (Nat.eqb_spec z x) as [->|N2].
      + rewrite nth_set_same by (eapply vat_lt; eauto). unfold vat in *. rewrite Hy. tauto.
      + rewrite nth_set_other by auto. unfold vat. tauto. }
  assert (forall z z', z <> z' -> pi z <> pi z') as PI.
  { intros z z' N. unfold pi. repeat match goal with |- context[?a =? ?b] => destruct (Nat.eqb_spec a b) end; congruence. }
  assert (forall z, pi (pi z) = z) as PP.
  { intros z. unfold pi. destruct (Nat.eqb_spec z y) as [->|N1]; [|destruct (Nat.eqb_spec z x) as [->|N2]];
      repeat match goal with |- context[?a =? ?b] => destruct (Nat.eqb_spec a b) end; congruence. }
  constructor; unfold vat, sat; cbn [vecs stores dead gone wtag].
  - intros z t Hz. apply VI in Hz. now apply (ib_vec _ _ I _ _ Hz).
  - apply (ib_store _ _ I).
  - apply (ib_dead _ _ I).
  - intros z z' t t' Hz Hz' N. apply VI in Hz. apply VI in Hz'. apply (ib_own _ _ I _ _ t t' Hz Hz'). now apply PI.
  - intros h es z t Hh Hz. apply VI in Hz. now apply (ib_lend _ _ I h es _ t Hh Hz).
  - apply (ib_sto _ _ I).
  - intros z t h Hz. apply VI in Hz. now apply (ib_ref _ _ I _ _ h Hz).
  - intros h es Hh N. destruct (ib_used _ _ I h es Hh N) as (z & t & Hz & Sz). exists (pi z), t. split; [|exact Sz].
    apply VI. now rewrite PP.
Qed.

Lemma share_inv w x v :
  Inv w -> vat w x v ->
  exists h, fst (share x v w) = h /\ Inv (snd (share x v w)) /\
    vecs (snd (share x v w)) = set_nth x (Some (VEC (body v) (Some h))) (vecs w) /\
    (forall p, T p (snd (share x v w)) = T p w).
Proof.
  intros I Hx. unfold share. destruct (store v) as [h|] eqn:Sv; cbn [fst snd].
  - exists h. split; [reflexivity|]. split; [exact I|]. split; [|reflexivity].
    symmetry. apply set_nth_id. unfold vat in Hx. rewrite Hx. destruct v; cbn in *. now rewrite Sv.
  - exists (length (stores w)). split; [reflexivity|]. split; [|split; [reflexivity|]].
    + set (h := length (stores w)). set (v' := VEC (body v) (Some h)).
      assert (forall y z, nth_error (set_nth x (Some v') (vecs w)) y = Some (Some z) ->
            (y = x /\ z = v') \/ (y <> x /\ vat w y z)) as VI.
      { intros y z Hy. apply nth_set_inv in Hy as [[E1 E2]|[E1 E2]]; [left; split; congruence|right; split; auto]. }
      assert (forall k es, nth_error (stores w ++ [Some (blocks (body v))]) k = Some (Some es) ->
            (k = h /\ es = blocks (body v)) \/ (k < h /\ sat w k es)) as SI.
      { intros k es Hk. apply nth_snoc_inv in Hk as [[E1 E2]|[E1 E2]]; [left; split; [exact E1|congruence]|right; split; auto]. }
      assert (forall y z, vat w y z -> store z <> Some h) as NH.
      { intros y z Hy Sz. pose proof (ib_ref _ _ I y z h Hy Sz) as Hh. unfold sat in Hh.
        assert (h < length (stores w)) by (apply nth_error_Some; congruence). unfold h in *. lia. }
      constructor; unfold vat, sat; cbn [vecs stores dead gone wtag].
      * intros y z Hy a Hz. apply VI in Hy as [[-> ->]|[N Hy]]; [exact (ib_vec _ _ I x v Hx a Hz)|exact (ib_vec _ _ I y z Hy a Hz)].
      * intros k es Hk a Ha. apply SI in Hk as [[-> ->]|[N Hk]]; [exact (ib_vec _ _ I x v Hx a Ha)|exact (ib_store _ _ I k es Hk a Ha)].
      * apply (ib_dead _ _ I).
      * intros y y' z z' Hy Hy' N Sz. apply VI in Hy as [[-> ->]|[N1 Hy]]; [discriminate|].
        apply VI in Hy' as [[-> ->]|[N2 Hy']]; [exact (ib_own _ _ I y x z v Hy Hx N Sz)|exact (ib_own _ _ I y y' z z' Hy Hy' N Sz)].
      * intros k es y z Hk Hy Sz. apply SI in Hk as [[-> ->]|[Nk Hk]].
        { apply VI in Hy as [[-> ->]|[N Hy]]; [cbn in Sz; congruence|].
          exact (ib_own _ _ I x y v z Hx Hy (not_eq_sym N) Sv). }
        { apply VI in Hy as [[-> ->]|[N Hy]].
          - refine (ib_lend _ _ I k es x v Hk Hx _). rewrite Sv. discriminate.
          - exact (ib_lend _ _ I k es y z Hk Hy Sz). }
      * intros k k' es es' Hk Hk' N.
        apply SI in Hk as [[-> ->]|[Nk Hk]]; apply SI in Hk' as [[-> ->]|[Nk' Hk']]; try congruence.
        { intros a H1 H2. refine (ib_lend _ _ I k' es' x v Hk' Hx _ a H2 H1). rewrite Sv. discriminate. }
        { refine (ib_lend _ _ I k es x v Hk Hx _). rewrite Sv. discriminate. }
        { exact (ib_sto _ _ I k k' es es' Hk Hk' N). }
      * intros y z k Hy Sz. apply VI in Hy as [[-> ->]|[N Hy]].
        { injection Sz as <-. apply nth_snoc_new. }
        { apply nth_snoc_old. exact (ib_ref _ _ I y z k Hy Sz). }
      * intros k es Hk _. apply SI in Hk as [[-> ->]|[Nk Hk]].
        { exists x, v'. split; [|reflexivity]. apply nth_set_same. eapply vat_lt; eauto. }
        { destruct (ib_used _ _ I k es Hk ltac:(discriminate)) as (y & z & Hy & Sz). exists y, z. split; [|exact Sz].
          rewrite nth_set_other; [exact Hy|]. intros <-. pose proof (vat_fun _ _ _ _ Hx Hy). congruence. }
    + intros p. unfold T. cbn [gone vecs stores].
      pose proof (lsum_set (cv p) x (Some (VEC (body v) (Some (length (stores w))))) (Some v) (vecs w) Hx) as L.
      rewrite lsum_app. cbn [cv store body lsum cst] in *. rewrite Sv in L. lia.
Qed.
End P.
