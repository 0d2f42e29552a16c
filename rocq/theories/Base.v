(** Shared vocabulary of all models: outcomes of a C++ call.

    [Ok a]    the call returns normally,
    [Throw e] the call throws exception [e] (the classes of
              /repo/include/mdds/global.hpp:37-116 and
              /repo/include/mdds/multi_type_vector/types.hpp:122-139, plus
              std::out_of_range),
    [Undef]   the call has undefined behaviour (null or end dereference,
              out-of-bounds access, double delete, endless loop off a list). *)
From Coq Require Import List ZArith Lia Bool.
Import ListNotations.

(** Exception classes thrown by the library:
    /repo/include/mdds/global.hpp:37-116, multi_type_vector/types.hpp:122-139. *)
Inductive exn : Set :=
| E_general | E_invalid_arg | E_size | E_type | E_integrity
| E_out_of_range | E_element_block | E_shared_block.

(** Outcome of a call; the C++ abstract machine, not a repo definition. *)
Inductive res (A : Type) : Type :=
| Ok (a : A)
| Throw (e : exn)
| Undef.
Arguments Ok {A} a.
Arguments Throw {A} e.
Arguments Undef {A}.

(** Sequencing of calls (exception propagation); C++ semantics. *)
Definition bind {A B : Type} (m : res A) (f : A -> res B) : res B :=
  match m with
  | Ok a => f a
  | Throw e => Throw e
  | Undef => Undef
  end.

Declare Scope res_scope.
Delimit Scope res_scope with res.
Notation "'let*' x ':=' m 'in' k" := (bind m (fun x => k))
  (at level 200, x pattern, m at level 100, k at level 200) : res_scope.
Open Scope res_scope.

(** Dereference: a missing element is undefined behaviour. *)
Definition deref {A : Type} (o : option A) : res A :=
  match o with Some a => Ok a | None => Undef end.

(** Overwrite the [i]-th element (vector/list element assignment);
    no effect out of range, callers guard with [nth_error]. *)
Fixpoint set_nth {A : Type} (i : nat) (a : A) (l : list A) : list A :=
  match l, i with
  | [], _ => []
  | _ :: t, O => a :: t
  | h :: t, S i' => h :: set_nth i' a t
  end.

(** Insert before the [i]-th element (std::vector::insert, list linking). *)
Definition insert_at {A : Type} (i : nat) (a : A) (l : list A) : list A :=
  firstn i l ++ a :: skipn i l.

Lemma set_nth_length {A} i (a : A) l : length (set_nth i a l) = length l.
Proof. revert i; induction l as [|h t IH]; intros [|i]; simpl; auto. Qed.

Lemma set_nth_app {A} (a : A) l1 x l2 :
  set_nth (length l1) a (l1 ++ x :: l2) = l1 ++ a :: l2.
Proof. induction l1 as [|h t IH]; simpl; [reflexivity | now rewrite IH]. Qed.

Lemma nth_error_app_mid {A} (l1 : list A) x l2 :
  nth_error (l1 ++ x :: l2) (length l1) = Some x.
Proof. rewrite nth_error_app2 by lia. now rewrite Nat.sub_diag. Qed.

Lemma firstn_app_exact {A} (l1 l2 : list A) : firstn (length l1) (l1 ++ l2) = l1.
Proof. rewrite firstn_app, Nat.sub_diag, firstn_all; simpl. now rewrite app_nil_r. Qed.

Lemma skipn_app_exact {A} (l1 l2 : list A) : skipn (length l1) (l1 ++ l2) = l2.
Proof. rewrite skipn_app, Nat.sub_diag, skipn_all; reflexivity. Qed.

Lemma nth_error_split_exact {A} (l : list A) i x :
  nth_error l i = Some x -> l = firstn i l ++ x :: skipn (S i) l.
Proof.
  revert i; induction l as [|h t IH]; intros [|i] H; simpl in *; try discriminate.
  - now inversion H.
  - now rewrite <- (IH _ H).
Qed.

(** A boolean equality test decides Leibniz equality (hypothesis on operator== of
    user supplied value types). *)
Definition eqb_ok {A : Type} (eqb : A -> A -> bool) : Prop :=
  forall a b, eqb a b = true <-> a = b.
