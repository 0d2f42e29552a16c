(** Property C91: mdds::sorted_string_map, keys and values undo each other, and which
    tables the constructor accepts. *)
From Coq Require Import List ZArith Lia Bool.
From Verif Require Import Base SsmModel SsmProps.
Import ListNotations.
Open Scope Z_scope.

(** * Specification *)
(** No two entries have the same value. *)
Definition values_differ {V} (l : list (list Z * V)) : Prop :=
  forall k k' v, In (k, v) l -> In (k', v) l -> k = k'.
(** The entry at place [i] has value [v], and no entry before it has. *)
Definition first_with {V} (l : list (list Z * V)) (v : V) (i : nat) (k : list Z) : Prop :=
  nth_error l i = Some (k, v) /\ forall j k', (j < i)%nat -> nth_error l j <> Some (k', v).
(** The entry at place [i] has value [v], and no entry after it has. *)
Definition last_with {V} (l : list (list Z * V)) (v : V) (i : nat) (k : list Z) : Prop :=
  nth_error l i = Some (k, v) /\ forall j k', (i < j)%nat -> nth_error l j <> Some (k', v).

(** * Lemmas *)
Section L.
Context {V : Type}.
Variable veqb : V -> V -> bool.
Hypothesis veqb_ok : eqb_ok veqb.
Local Notation entry := (list Z * V)%type.

Lemma not_lex_trans a b c : ~ lex b a -> ~ lex c b -> ~ lex c a.
Proof.
  intros H1 H2 H3. destruct (lex_total a b) as [H|[->|H]]; auto.
  apply H2. eapply lex_trans; eauto.
Qed.

Lemma is_sorted_ok (l : list entry) : is_sorted l = true <-> key_sorted l.
Proof.
  induction l as [|a l IH].
  { split; auto. intros _ i j x y _ Hx. destruct i; discriminate. }
  destruct l as [|b l].
  { split; auto. intros _ [|i] [|j] x y Hij Hx Hy; try lia; destruct j; discriminate. }
  cbn [is_sorted] in *. destruct (sv_ltb (fst b) (fst a)) eqn:E.
  - split; [discriminate|]. intros H. exfalso.
    apply (H 0%nat 1%nat a b); auto. now apply lex_ltb.
  - assert (~ lex (fst b) (fst a)) as N by (rewrite <- lex_ltb; congruence). rewrite IH. split.
    + intros H i j x y Hij Hx Hy. destruct i as [|i].
      * injection Hx as <-. destruct j as [|j]; [lia|]. cbn in Hy.
        destruct j as [|j]; [now injection Hy as <-|].
        eapply not_lex_trans; [exact N|]. apply (H 0%nat (S j)); auto. lia.
      * destruct j as [|j]; [lia|]. apply (H i j); auto. lia.
    + intros H i j x y Hij Hx Hy. apply (H (S i) (S j)); auto. lia.
Qed.

Lemma linear_first (l : list entry) v k : In (k, v) l -> exists i, first_with l v i (linear_find veqb l v).
Proof.
  induction l as [|[k0 w] l IH]; intros H; [destruct H|]. cbn [linear_find snd fst].
  destruct (veqb w v) eqn:E.
  - apply veqb_ok in E. subst w. exists 0%nat. split; [reflexivity|]. intros j k' Hj. lia.
  - destruct IH as (i & H1 & H2).
    { destruct H as [H|H]; [|exact H]. injection H as <- <-. rewrite (proj2 (veqb_ok w w) eq_refl) in E. discriminate. }
    exists (S i). split; [exact H1|]. intros [|j] k' Hj X; [|apply (H2 j k'); auto; lia].
    cbn in X. injection X as -> ->. rewrite (proj2 (veqb_ok v v) eq_refl) in E. discriminate.
Qed.

Lemma hash_last_gen (l : list entry) v : forall B A m, l = A ++ B ->
  match assoc veqb m v with
  | Some p => exists k, last_with A v p k
  | None => forall k, ~ In (k, v) A end ->
  match assoc veqb (hash_build veqb B (length A) m) v with
  | Some p => exists k, last_with l v p k
  | None => forall k, ~ In (k, v) l end.
Proof.
  induction B as [|[k w] B IH]; intros A m E H.
  - simpl. rewrite E, app_nil_r in *. exact H.
  - cbn [hash_build]. specialize (IH (A ++ [(k, w)]) (upsert veqb m w (length A))).
    rewrite app_length in IH. simpl length in IH. replace (length A + 1)%nat with (S (length A)) in IH by lia.
    apply IH; [now rewrite <- app_assoc|]. rewrite (assoc_upsert veqb veqb_ok). cbn [snd]. destruct (veqb w v) eqn:EW.
    + apply veqb_ok in EW. subst w. exists k. split; [apply nth_error_app_mid|].
      intros j k' Hj X. assert (nth_error (A ++ [(k, v)]) j <> None) as N by congruence.
      apply nth_error_Some in N. rewrite app_length in N. cbn in N. lia.
    + assert (w <> v) as NW by (intros X; apply veqb_ok in X; congruence).
      destruct (assoc veqb m v) as [p|].
      * destruct H as (k1 & H1 & H2). exists k1.
        assert (p < length A)%nat as Lp by (apply nth_error_Some; congruence).
        split; [now rewrite nth_error_app1|]. intros j k' Hj X.
        destruct (Nat.lt_ge_cases j (length A)) as [L|L]; [rewrite nth_error_app1 in X by exact L; now apply (H2 j k')|].
        rewrite nth_error_app2 in X by exact L. destruct (j - length A)%nat as [|n]; [|destruct n; discriminate].
        cbn in X. congruence.
      * intros k' Hin. apply in_app_or in Hin. destruct Hin as [Hin|[Hin|[]]]; [now apply (H k')|]. congruence.
Qed.

Lemma hash_last (l : list entry) v k : In (k, v) l ->
  exists i k', last_with l v i k' /\ hash_find veqb l v = Ok k'.
Proof.
  intros Hin. unfold hash_find. pose proof (hash_last_gen l v l [] [] eq_refl (fun _ H => H)) as H. simpl length in H.
  destruct (assoc veqb (hash_build veqb l 0 []) v) as [p|]; [|now apply H in Hin].
  destruct H as (k' & H). exists p, k'. split; [exact H|]. destruct H as [-> _]. reflexivity.
Qed.
End L.

(** * Theorems *)
(** C91: on a table with strictly increasing keys and different values, find_key takes
    the value of a key back to the key and find takes the key of a value back to the
    value, with both key finders. *)
Theorem C91_inverse : forall (V : Type) (veqb : V -> V -> bool), eqb_ok veqb ->
  forall (l : list (list Z * V)) null, key_increasing l -> values_differ l ->
  (forall k v, ssm_find l null k = Ok v -> v <> null -> linear_find veqb l v = k /\ hash_find veqb l v = Ok k) /\
  (forall k v, linear_find veqb l v = k -> k <> [] -> ssm_find l null k = Ok v) /\
  (forall k v, hash_find veqb l v = Ok k -> k <> [] -> ssm_find l null k = Ok v).
Proof.
  intros V veqb Hv l null HI HD. destruct (C18_find V l null HI) as [F1 F2]. repeat split.
  - destruct (C18_find_first V l null k (increasing_sorted l HI)) as [(i & [k' v'] & Hn & Ek & Ef & _)|[_ Ef]]; [|congruence].
    cbn in Ek, Ef. subst k'. rewrite H in Ef. injection Ef as ->. apply nth_error_In in Hn.
    destruct (C18_find_key_linear V veqb Hv l v') as [(k' & Hk & E)|[N _]]; [|now apply N in Hn].
    rewrite E. now apply (HD k' k v').
  - destruct (C18_find_first V l null k (increasing_sorted l HI)) as [(i & [k' v'] & Hn & Ek & Ef & _)|[_ Ef]]; [|congruence].
    cbn in Ek, Ef. subst k'. rewrite H in Ef. injection Ef as ->. apply nth_error_In in Hn.
    destruct (C18_find_key_hash V veqb Hv l v') as [(k' & Hk & E)|[N _]]; [|now apply N in Hn].
    rewrite E. f_equal. now apply (HD k' k v').
  - intros k v E Hk. destruct (C18_find_key_linear V veqb Hv l v) as [(k' & Hin & E')|[_ E']]; [|congruence].
    apply F1. congruence.
  - intros k v E Hk. destruct (C18_find_key_hash V veqb Hv l v) as [(k' & Hin & E')|[_ E']]; [|congruence].
    apply F1. congruence.
Qed.
Definition ex_table2 : list (list Z * Z) := [([97], 1); ([97; 98], 2); ([98], 3)].
Example C91_inverse_ex : key_increasing ex_table2 /\ values_differ ex_table2 /\
  ssm_find ex_table2 0 [97; 98] = Ok 2 /\ linear_find Z.eqb ex_table2 2 = [97; 98] /\ hash_find Z.eqb ex_table2 3 = Ok [98].
Proof.
  split.
  { intros i j a b Hij Ha Hb.
    do 3 (destruct i as [|i]; [do 3 (destruct j as [|j]; [try lia; simpl in *; injection Ha as <-; injection Hb as <-; try (exfalso; lia); apply lex_ltb; reflexivity|]); destruct j; discriminate|]).
    destruct i; discriminate. }
  split; [|repeat split]. intros k k' v H1 H2. cbn in H1, H2. intuition congruence.
Qed.

(** C91: when several entries have the value, the linear finder returns the key of the
    first of them and the hash finder the key of the last. *)
Theorem C91_which_key : forall (V : Type) (veqb : V -> V -> bool), eqb_ok veqb ->
  forall (l : list (list Z * V)) v k, In (k, v) l ->
  (exists i, first_with l v i (linear_find veqb l v)) /\
  (exists i k', last_with l v i k' /\ hash_find veqb l v = Ok k').
Proof. intros V veqb Hv l v k H. split; [now apply (linear_first veqb Hv l v k)|now apply (hash_last veqb Hv l v k)]. Qed.
Example C91_which_key_ex : In ([97; 98], 2) ex_table /\ linear_find Z.eqb ex_table 2 = [97; 98] /\ hash_find Z.eqb ex_table 2 = Ok [98].
Proof. split; [cbn; auto|]. split; reflexivity. Qed.

(** C91: in a debug build the constructor accepts exactly the tables whose keys never
    decrease; without it every table is accepted.  The map has as many entries as the
    table. *)
Theorem C91_constructor : forall (V : Type) (l : list (list Z * V)),
  (key_sorted l -> ssm_make true l = Ok l) /\ (~ key_sorted l -> ssm_make true l = Throw E_invalid_arg) /\
  ssm_make false l = Ok l /\ ssm_size l = length l.
Proof.
  intros V l. unfold ssm_make. cbn [andb]. split.
  - intros H. apply is_sorted_ok in H. now rewrite H.
  - split; [|split; reflexivity]. intros H. destruct (is_sorted l) eqn:E; [|reflexivity].
    now apply is_sorted_ok in E.
Qed.
(** A table that is not sorted: the debug build rejects it; otherwise a key it holds is
    not found. *)
Example C91_constructor_ex : let l := [([98], 1); ([99], 2); ([97], 3)] in
  ~ key_sorted l /\ ssm_make true l = Throw E_invalid_arg /\ ssm_find l 0 [97] = Ok 0 /\
  key_sorted ex_table /\ ssm_make true ex_table = Ok ex_table.
Proof.
  cbn zeta. split; [|split; [reflexivity|split; [reflexivity|split; [|reflexivity]]]].
  - intros H. apply is_sorted_ok in H. discriminate.
  - apply is_sorted_ok. reflexivity.
Qed.

(** One query for all the theorems of this file. *)
Definition SsmProps2_theorems := (@C91_inverse, @C91_which_key, @C91_constructor).
Print Assumptions SsmProps2_theorems.
