(** Property C18: mdds::sorted_string_map looks keys and values up exactly. *)
From Coq Require Import List ZArith Lia Bool ZifyBool ZifyNat.
From Verif Require Import Base SsmModel.
Import ListNotations.
Open Scope Z_scope.

(** * Specification *)
(** Lexicographic order of byte strings. *)
Inductive lex : list Z -> list Z -> Prop :=
| lex_nil y b : lex [] (y :: b)
| lex_hd x y a b : x < y -> lex (x :: a) (y :: b)
| lex_tl x a b : lex a b -> lex (x :: a) (x :: b).
(** Keys never decrease. *)
Definition key_sorted {V} (l : list (list Z * V)) : Prop :=
  forall i j a b, (i < j)%nat -> nth_error l i = Some a -> nth_error l j = Some b -> ~ lex (fst b) (fst a).
(** Keys strictly increase. *)
Definition key_increasing {V} (l : list (list Z * V)) : Prop :=
  forall i j a b, (i < j)%nat -> nth_error l i = Some a -> nth_error l j = Some b -> lex (fst a) (fst b).

(** * Lemmas *)
Lemma lex_ltb a b : sv_ltb a b = true <-> lex a b.
Proof.
  revert b. induction a as [|x a IH]; intros [|y b]; simpl.
  - split; [discriminate|inversion 1].
  - split; [constructor|reflexivity].
  - split; [discriminate|inversion 1].
  - destruct (x <? y) eqn:E1; [split; [intros _; constructor; lia|reflexivity]|].
    destruct (y <? x) eqn:E2.
    + split; [discriminate|]. inversion 1; subst; lia.
    + rewrite IH. assert (x = y) by lia. subst. split; [now apply lex_tl|]. inversion 1; subst; [lia|assumption].
Qed.
Lemma sv_eqb_ok a b : sv_eqb a b = true <-> a = b.
Proof.
  revert b. induction a as [|x a IH]; intros [|y b]; simpl; try (split; congruence).
  rewrite andb_true_iff, IH, Z.eqb_eq. split; [intros [-> ->]; reflexivity|intros E; injection E; auto].
Qed.
Lemma lex_trans a b c : lex a b -> lex b c -> lex a c.
Proof.
  intros H. revert c. induction H; intros c Hc; inversion Hc; subst; try (constructor; lia); try (constructor; assumption).
  apply lex_tl. now apply IHlex.
Qed.
Lemma lex_irrefl a : ~ lex a a.
Proof. intros H. remember a as b eqn:E in H at 2. revert E. induction H; intros E; try discriminate; injection E; intros; subst; [lia|auto]. Qed.
Lemma lex_total a b : lex a b \/ a = b \/ lex b a.
Proof.
  revert b. induction a as [|x a IH]; intros [|y b].
  - auto.
  - left. constructor.
  - right. right. constructor.
  - destruct (Z.lt_trichotomy x y) as [H|[->|H]]; [left; now constructor| |right; right; now constructor].
    destruct (IH b) as [H|[->|H]]; [left; now apply lex_tl|auto|right; right; now apply lex_tl].
Qed.

Section L.
Context {V : Type}.
Variable veqb : V -> V -> bool.
Hypothesis veqb_ok : eqb_ok veqb.
Local Notation entry := (list Z * V)%type.

Lemma increasing_sorted (l : list entry) : key_increasing l -> key_sorted l.
Proof. intros H i j a b Hij Ha Hb HL. apply (lex_irrefl (fst a)). eapply lex_trans; [|exact HL]. eapply H; eauto. Qed.

Lemma lower_bound_ok (l : list entry) k : key_sorted l -> forall fuel first len,
  (len <= fuel)%nat -> (first + len <= length l)%nat ->
  (forall i e, (i < first)%nat -> nth_error l i = Some e -> lex (fst e) k) ->
  (forall i e, (first + len <= i)%nat -> nth_error l i = Some e -> ~ lex (fst e) k) ->
  exists p, lower_bound fuel l k first len = Ok p /\ (p <= length l)%nat /\
  (forall i e, (i < p)%nat -> nth_error l i = Some e -> lex (fst e) k) /\
  (forall i e, (p <= i)%nat -> nth_error l i = Some e -> ~ lex (fst e) k).
Proof.
  intros HS. induction fuel as [|f IH]; intros first len Hf HL HA HB.
  - assert (len = 0%nat) by lia. subst. exists first. simpl. split; [reflexivity|]. split; [lia|]. split; [assumption|].
    intros i e Hi. apply HB. lia.
  - destruct len as [|n]; [exists first; simpl; split; [reflexivity|]; split; [lia|]; split; [assumption|]; intros i e Hi; apply HB; lia|].
    cbn [lower_bound]. set (half := Nat.div2 (S n)).
    assert (half < S n)%nat as Hh by (apply Nat.lt_div2; lia).
    destruct (nth_error l (first + half)) as [m|] eqn:EM; [|apply nth_error_None in EM; lia]. cbn [deref bind].
    destruct (sv_ltb (fst m) k) eqn:EL.
    + apply lex_ltb in EL. apply IH; [lia|lia| |].
      * intros i e Hi Hn. destruct (Nat.eq_dec i (first + half)) as [->|N]; [congruence|].
        destruct (lex_total (fst e) (fst m)) as [H|[H|H]]; [eapply lex_trans; eauto|now rewrite H|].
        exfalso. eapply (HS i (first + half)%nat e m); eauto. lia.
      * intros i e Hi. apply HB. lia.
    + assert (~ lex (fst m) k) as NL by (rewrite <- lex_ltb; congruence). apply IH; [lia|lia|assumption|].
      intros i e Hi Hn. destruct (Nat.eq_dec i (first + half)) as [->|N]; [congruence|].
      intros HX. apply NL. destruct (lex_total (fst m) (fst e)) as [H|[H|H]]; [eapply lex_trans; eauto|now rewrite H|].
      exfalso. eapply (HS (first + half)%nat i m e); eauto. lia.
Qed.

(** First entry with the key, if any. *)
Lemma find_lemma (l : list entry) null k : key_sorted l ->
  (exists i e, nth_error l i = Some e /\ fst e = k /\ ssm_find l null k = Ok (snd e) /\
     forall j e', (j < i)%nat -> nth_error l j = Some e' -> fst e' <> k) \/
  ((forall e, In e l -> fst e <> k) /\ ssm_find l null k = Ok null).
Proof.
  intros HS. unfold ssm_find. destruct (length l =? 0)%nat eqn:E0.
  - right. destruct l; [|simpl in E0; discriminate]. split; [intros e []|reflexivity].
  - destruct (lower_bound_ok l k HS (length l) 0 (length l)) as (p & E & HP & HA & HB); [lia|lia|intros; lia| |].
    { intros i e Hi Hn. assert (nth_error l i <> None) as N by congruence. apply nth_error_Some in N. lia. }
    rewrite E. cbn [bind].
    assert (forall e, In e l -> fst e = k -> exists i, nth_error l i = Some e /\ (p <= i)%nat) as HK.
    { intros e He Ek. apply In_nth_error in He. destruct He as [i Hi]. exists i. split; [assumption|].
      destruct (le_lt_dec p i) as [|H]; [assumption|]. exfalso. apply (HA i e H) in Hi. rewrite Ek in Hi. now apply lex_irrefl in Hi. }
    destruct (p =? length l)%nat eqn:EP.
    + right. split; [|reflexivity]. intros e He Ek. destruct (HK e He Ek) as (i & Hi & Hp).
      assert (nth_error l i <> None) as N by congruence. apply nth_error_Some in N. lia.
    + destruct (nth_error l p) as [m|] eqn:EM; [|apply nth_error_None in EM; lia]. cbn [deref bind].
      destruct (sv_eqb (fst m) k) eqn:EQ.
      * left. apply sv_eqb_ok in EQ. exists p, m. split; [assumption|]. split; [assumption|]. split; [reflexivity|].
        intros j e' Hj Hn Ek. apply (HA j e' Hj) in Hn. rewrite Ek in Hn. now apply lex_irrefl in Hn.
      * right. split; [|reflexivity]. intros e He Ek. destruct (HK e He Ek) as (i & Hi & Hp).
        assert (fst m <> k) as NK by (intros E1; apply sv_eqb_ok in E1; congruence).
        destruct (Nat.eq_dec i p) as [->|N]; [congruence|].
        assert (lex k (fst m)) as HL.
        { destruct (lex_total k (fst m)) as [H|[H|H]]; [assumption|congruence|]. exfalso. eapply (HB p m); eauto. }
        eapply (HS p i m e); [lia|eassumption|eassumption|]. now rewrite Ek.
Qed.

Lemma find_strict_lemma (l : list entry) null : key_increasing l ->
  (forall k v, In (k, v) l -> ssm_find l null k = Ok v) /\
  (forall k, (forall v, ~ In (k, v) l) -> ssm_find l null k = Ok null).
Proof.
  intros HI. pose proof (increasing_sorted l HI) as HS. split.
  - intros k v Hin. destruct (find_lemma l null k HS) as [(i & e & Hn & Ek & Ef & _)|[H _]].
    + apply In_nth_error in Hin. destruct Hin as [j Hj]. rewrite Ef. f_equal.
      destruct (lt_eq_lt_dec i j) as [[H|H]|H].
      * exfalso. apply (lex_irrefl k). pose proof (HI i j e (k, v) H Hn Hj) as HL. simpl in HL. now rewrite Ek in HL.
      * subst. rewrite Hn in Hj. injection Hj as ->. reflexivity.
      * exfalso. apply (lex_irrefl k). pose proof (HI j i (k, v) e H Hj Hn) as HL. simpl in HL. now rewrite Ek in HL.
    + exfalso. now apply (H (k, v) Hin).
  - intros k H. destruct (find_lemma l null k HS) as [(i & [k' v'] & Hn & Ek & _)|[_ E]]; [|assumption].
    exfalso. simpl in Ek. subst. apply nth_error_In in Hn. now apply (H v').
Qed.

Lemma linear_lemma (l : list entry) v :
  (exists k, In (k, v) l /\ linear_find veqb l v = k) \/ ((forall k, ~ In (k, v) l) /\ linear_find veqb l v = []).
Proof.
  induction l as [|[k w] l IH]; simpl.
  - right. auto.
  - destruct (veqb w v) eqn:E.
    + apply veqb_ok in E. subst. left. exists k. auto.
    + assert (w <> v) as N by (intros H; apply veqb_ok in H; congruence).
      destruct IH as [(k' & H1 & H2)|[H1 H2]]; [left; exists k'; auto|].
      right. split; [|assumption]. intros k' [H|H]; [congruence|now apply (H1 k')].
Qed.

Lemma assoc_upsert m v p w : assoc veqb (upsert veqb m v p) w = if veqb v w then Some p else assoc veqb m w.
Proof.
  assert (forall a b, veqb a b = true <-> a = b) as VE by exact veqb_ok.
  induction m as [|[u q] m IH]; simpl; [reflexivity|].
  destruct (veqb u v) eqn:E1; simpl.
  - apply VE in E1. subst. destruct (veqb v w); reflexivity.
  - destruct (veqb u w) eqn:E2; [|exact IH]. apply VE in E2. subst.
    destruct (veqb v w) eqn:E3; [|reflexivity]. apply VE in E3. subst. rewrite (proj2 (VE w w) eq_refl) in E1. discriminate.
Qed.

Lemma hash_build_ok (l : list entry) v : forall B A m, l = A ++ B ->
  match assoc veqb m v with
  | Some p => exists k, nth_error l p = Some (k, v)
  | None => forall k, ~ In (k, v) A end ->
  match assoc veqb (hash_build veqb B (length A) m) v with
  | Some p => exists k, nth_error l p = Some (k, v)
  | None => forall k, ~ In (k, v) l end.
Proof.
  induction B as [|[k w] B IH]; intros A m E H.
  - simpl. rewrite E, app_nil_r in *. exact H.
  - cbn [hash_build]. specialize (IH (A ++ [(k, w)]) (upsert veqb m w (length A))).
    rewrite app_length in IH. simpl length in IH. replace (length A + 1)%nat with (S (length A)) in IH by lia.
    apply IH; [now rewrite <- app_assoc|]. rewrite assoc_upsert. destruct (veqb w v) eqn:EW.
    + apply veqb_ok in EW. subst w. exists k. rewrite E. apply nth_error_app_mid.
    + destruct (assoc veqb m v); [assumption|]. intros k' Hin. apply in_app_or in Hin. destruct Hin as [Hin|[Hin|[]]]; [now apply (H k')|].
      injection Hin as <- <-. rewrite (proj2 (veqb_ok w w) eq_refl) in EW. discriminate.
Qed.

Lemma hash_lemma (l : list entry) v :
  (exists k, In (k, v) l /\ hash_find veqb l v = Ok k) \/ ((forall k, ~ In (k, v) l) /\ hash_find veqb l v = Ok []).
Proof.
  unfold hash_find. pose proof (hash_build_ok l v l [] [] eq_refl (fun _ H => H)) as H. simpl length in H.
  destruct (assoc veqb (hash_build veqb l 0 []) v) as [p|].
  - destruct H as [k Hk]. left. exists k. rewrite Hk. simpl. split; [|reflexivity]. eapply nth_error_In; eauto.
  - right. split; [assumption|reflexivity].
Qed.
End L.

(** * Theorems *)
(** C18: on a table with strictly increasing keys, find returns the value of the key, or
    the null value. *)
Theorem C18_find : forall (V : Type) (l : list (list Z * V)) null, key_increasing l ->
  (forall k v, In (k, v) l -> ssm_find l null k = Ok v) /\
  (forall k, (forall v, ~ In (k, v) l) -> ssm_find l null k = Ok null).
Proof. exact @find_strict_lemma. Qed.
Definition ex_table : list (list Z * Z) := [([], 4); ([97], 1); ([97; 98], 2); ([97; 200], 3); ([98], 2)].
Example C18_find_ex : key_increasing ex_table /\ ssm_find ex_table 0 [97; 200] = Ok 3 /\ ssm_find ex_table 0 [97; 99] = Ok 0.
Proof.
  split; [|split; reflexivity]. intros i j a b Hij Ha Hb.
  do 5 (destruct i as [|i]; [do 5 (destruct j as [|j]; [try lia; simpl in *; injection Ha as <-; injection Hb as <-; try (exfalso; lia); apply lex_ltb; reflexivity|]); destruct j; discriminate|]).
  destruct i; discriminate.
Qed.

(** C18: with repeated keys (sorted but not strictly) the first entry with the key wins. *)
Theorem C18_find_first : forall (V : Type) (l : list (list Z * V)) null k, key_sorted l ->
  (exists i e, nth_error l i = Some e /\ fst e = k /\ ssm_find l null k = Ok (snd e) /\
     forall j e', (j < i)%nat -> nth_error l j = Some e' -> fst e' <> k) \/
  ((forall e, In e l -> fst e <> k) /\ ssm_find l null k = Ok null).
Proof. exact @find_lemma. Qed.
Example C18_find_first_ex : key_sorted [([97], 1); ([97], 2)] /\ ssm_find [([97], 1); ([97], 2)] 0 [97] = Ok 1.
Proof.
  split; [|reflexivity]. intros i j a b Hij Ha Hb HL.
  destruct i as [|[|i]]; [|destruct j as [|[|j]]; [lia|lia|destruct j; discriminate]|destruct i; discriminate].
  destruct j as [|[|j]]; [lia| |destruct j; discriminate]. simpl in *. injection Ha as <-. injection Hb as <-. now apply lex_irrefl in HL.
Qed.

(** C18: both key finders return a key of the value, or the empty string. *)
Theorem C18_find_key_linear : forall (V : Type) (veqb : V -> V -> bool), eqb_ok veqb -> forall (l : list (list Z * V)) v,
  (exists k, In (k, v) l /\ linear_find veqb l v = k) \/ ((forall k, ~ In (k, v) l) /\ linear_find veqb l v = []).
Proof. exact @linear_lemma. Qed.
Theorem C18_find_key_hash : forall (V : Type) (veqb : V -> V -> bool), eqb_ok veqb -> forall (l : list (list Z * V)) v,
  (exists k, In (k, v) l /\ hash_find veqb l v = Ok k) \/ ((forall k, ~ In (k, v) l) /\ hash_find veqb l v = Ok []).
Proof. exact @hash_lemma. Qed.
Example C18_find_key_ex : linear_find Z.eqb ex_table 2 = [97; 98] /\ hash_find Z.eqb ex_table 2 = Ok [98] /\ hash_find Z.eqb ex_table 9 = Ok [].
Proof. repeat split. Qed.

(** One query for all the theorems of this file. *)
Definition SsmProps_theorems :=
  (@C18_find, @C18_find_first, @C18_find_key_linear, @C18_find_key_hash).
Print Assumptions SsmProps_theorems.
