(** Permutations of concatenations, and fresh addresses. *)

From Coq Require Import List Lia Permutation.
Import ListNotations.

Lemma pcons {A} (a : A) l : a :: l = [a] ++ l.
Proof. reflexivity. Qed.

Lemma perm_end {A} (a b : list A) : Permutation (a ++ []) (b ++ []) -> Permutation a b.
Proof. now rewrite !app_nil_r. Qed.

(** Bring [a] to the front of the right-hand side *)
Ltac pfront a :=
  match goal with
  | |- Permutation _ (a ++ _) => idtac
  | |- Permutation _ ?R =>
      match R with context [?x ++ a ++ ?r] =>
        rewrite (Permutation_app_swap_app x a r); pfront a
      end
  end.

Ltac pcanon :=
  repeat match goal with
  | |- context [?a :: ?l] => lazymatch l with nil => fail | _ => change (a :: l) with ([a] ++ l) end
  end; rewrite <- ?app_assoc.

(** Decide a permutation of two concatenations of the same lists *)
Ltac perm :=
  apply perm_end; pcanon; rewrite ?app_nil_l;
  repeat match goal with
  | |- Permutation ?l ?l => reflexivity
  | |- Permutation (?a ++ _) _ => pfront a; apply Permutation_app_head
  | |- Permutation (?a ++ _) (?b ++ _) => unify a b; apply Permutation_app_head
  end.

(** Some addresses are given up, new ones are taken *)
Lemma fresh_addrs (old kept gone new : list nat) x m :
  NoDup old -> Forall (fun z => z < x) old ->
  Permutation old (kept ++ gone) -> Permutation new (kept ++ seq x m) ->
  NoDup new /\ Forall (fun z => z < x + m) new.
Proof.
  intros N F P Q.
  apply (Permutation_NoDup P) in N. apply (Permutation_Forall P) in F.
  apply Forall_app in F. destruct F as [F _].
  assert (N1 : NoDup kept).
  { revert N. clear. induction kept as [|y l IH]; intros N; [constructor|]. cbn [app] in N.
    inversion N; subst. constructor; [|auto]. intros Hi. apply H1. apply in_or_app. auto. }
  split.
  - apply (Permutation_NoDup (Permutation_sym Q)).
    revert F N1. clear. induction kept as [|y l IH]; intros F N; cbn [app]; [apply seq_NoDup|].
    inversion F; inversion N; subst. constructor; [|auto].
    rewrite in_app_iff, in_seq. intros [H|H]; [auto|lia].
  - apply (Permutation_Forall (Permutation_sym Q)). apply Forall_app. split.
    + eapply Forall_impl; [|exact F]. cbn. intros; lia.
    + rewrite Forall_forall. intros z Hz. apply in_seq in Hz. lia.
Qed.

Lemma Forall_firstn {A} (P : A -> Prop) k l : Forall P l -> Forall P (firstn k l).
Proof. intros H. rewrite <- (firstn_skipn k l) in H. apply Forall_app in H. apply H. Qed.
Lemma Forall_skipn {A} (P : A -> Prop) k l : Forall P l -> Forall P (skipn k l).
Proof. intros H. rewrite <- (firstn_skipn k l) in H. apply Forall_app in H. apply H. Qed.
