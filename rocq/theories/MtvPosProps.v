(** C93: what position objects of multi_type_vector say about the place they are at. *)
From Coq Require Import List ZArith Lia Bool.
From Verif Require Import Base MtvModel MtvModel2 MtvSpec MtvProofs MtvWrap MtvBridge MtvBridge2 MtvIter MtvPos MtvProps.
Import ListNotations.
Open Scope nat_scope.

Section T.
Set Default Proof Using "Type".
Context {V : Type}.
Variable cat : V -> nat.
Variable managed : nat -> bool.
Variable dup : V -> V.
Variable copyable : nat -> bool.
(** Copying a value keeps its type. *)
Hypothesis Hdup : forall v, cat (dup v) = cat v.
Notation st := (@st V).
Notation blk := (@blk V).
Notation reach := (@reach V cat managed dup copyable).

Definition at_block (s : st) (i : nat) (b : blk) : @iter V :=
  ITR (NODE (dcat (bd b)) (bp b) (bs b) (bd b) i) i (length (bl s)).

Lemma it_at_block (s : st) q b t : bl s = q ++ b :: t -> it_at s (length q) = Ok (at_block s (length q) b).
Proof.
  intros E. unfold it_at, make, ordered, at_block. cbn [ipos iend].
  assert (L : length (bl s) = length q + S (length t)) by (rewrite E, app_length; reflexivity).
  destruct (Nat.leb_spec (length q) (length (bl s))); [|lia].
  destruct (Nat.eqb_spec (length q) (length (bl s))); [lia|].
  unfold update_node, ordered. cbn [ipos iend cur nindex blank]. rewrite E at 1.
  rewrite nth_error_app2, Nat.sub_diag by lia. reflexivity.
Qed.

Lemma p_position_at (s : st) h row : good cat s -> row < cs s ->
  exists q b t, bl s = q ++ b :: t /\ tot q <= row < tot q + bs b /\ bp b = tot q /\
    p_position h row s = Ok (at_block s (length q) b, row - tot q).
Proof.
  intros G Hr. destruct (position_at cat s h row G Hr) as (q & b & t & E & H1 & H2 & E').
  exists q, b, t. split; [exact E|]. split; [exact H1|]. split; [exact H2|].
  unfold p_position. unfold position in E'. destruct (Nat.eqb_spec row (cs s)); [lia|].
  destruct (locate h row s) as [bi| |]; cbn [bind] in *; [|discriminate..].
  destruct (pos_at bi s) as [p| |]; cbn [bind] in *; [|discriminate..]. injection E' as -> E'.
  rewrite (it_at_block s q b t E). cbn [bind]. now rewrite E'.
Qed.

Lemma block_unique (q q' : list blk) : forall b b' t t' r, q ++ b :: t = q' ++ b' :: t' ->
  tot q <= r < tot q + bs b -> tot q' <= r < tot q' + bs b' -> q' = q /\ b' = b.
Proof.
  revert q'. induction q as [|x q IH]; intros [|x' q'] b b' t t' r E H H'; cbn [app] in E; injection E as E1 E2; subst; cbn [tot] in *.
  - now split.
  - lia.
  - lia.
  - destruct (IH q' b b' t t' (r - bs x') E2 ltac:(lia) ltac:(lia)) as [-> ->]. now split.
Qed.
Lemma tot_snoc (q : list blk) b : tot (q ++ [b]) = tot q + bs b.
Proof. induction q as [|x q IH]; cbn [app tot]; lia. Qed.

(** The iterator of a block that is followed by another one *)
Lemma inc_block (s : st) q b c t : bl s = q ++ b :: c :: t ->
  inc true s (at_block s (length q) b) = Ok (at_block s (S (length q)) c).
Proof.
  intros E. unfold inc, ordered, at_block. cbn [ipos iend cur ntype npos nsize ndata nindex].
  assert (Ll : length (bl s) = length q + S (S (length t))) by (rewrite E, app_length; reflexivity).
  destruct (Nat.ltb_spec (length q) (length (bl s))); [|lia]. destruct (Nat.eqb_spec (S (length q)) (length (bl s))); [lia|].
  unfold update_node, ordered. cbn [ipos iend cur nindex].
  assert (Nn : nth_error (bl s) (S (length q)) = Some c).
  { rewrite E, nth_error_app2 by lia. replace (S (length q) - length q) with 1 by lia. reflexivity. }
  rewrite Nn. reflexivity.
Qed.

(** Every index below size() comes back, and next_position leads to the next one.  Missing:
    the end, see C93_end_refuted. *)
Theorem C93_logical_partial : forall s h row, reach anyop s -> row < size s ->
  exists p, p_position h row s = Ok p /\ p_logical p = row /\
    (S row < size s -> exists q, p_next s p = Ok q /\ p_logical q = S row /\ p_position None (S row) s = Ok q).
Proof using Hdup.
  intros s h row Hr Hs. pose proof (reach_good cat managed dup copyable Hdup _ _ Hr) as G. unfold size in *.
  destruct (p_position_at s h row G Hs) as (q & b & t & E & H1 & H2 & Ep).
  eexists. split; [exact Ep|]. split; [unfold p_logical; cbn [fst snd at_block cur npos]; lia|].
  intros Hn. destruct (p_position_at s None (S row) G Hn) as (q' & b' & t' & E' & H1' & H2' & Ep').
  unfold p_next. cbn [fst snd at_block cur nsize]. rewrite Ep'.
  assert (Lg : p_logical (at_block s (length q') b', S row - tot q') = S row) by (unfold p_logical; cbn [fst snd at_block cur npos]; lia).
  destruct (Nat.ltb_spec (S (row - tot q)) (bs b)) as [L|L].
  - destruct (block_unique q q' b b' t t' (S row)) as [-> ->]; [congruence|lia|lia|].
    exists (at_block s (length q) b, S row - tot q). split; [|now split]. f_equal. f_equal. lia.
  - destruct t as [|c t].
    { exfalso. destruct G as (_ & Gc & _). rewrite Gc, E, tot_snoc in Hn. lia. }
    fold (at_block s (length q) b). rewrite (inc_block s q b c t E). cbn [bind].
    assert (Hw : wfl cat 0 (q ++ b :: c :: t)) by (rewrite <- E; apply G).
    apply wfl_app in Hw. destruct Hw as (_ & _ & _ & _ & (W & _) & _).
    destruct (block_unique (q ++ [b]) q' c b' t t' (S row)) as [-> ->]; [rewrite <- app_assoc; cbn [app]; congruence|rewrite tot_snoc; lia|lia|].
    rewrite tot_snoc, app_length in *. cbn [length] in *. replace (length q + 1) with (S (length q)) in * by lia.
    replace (S row - (tot q + bs b)) with 0 in * by lia.
    eexists. split; [reflexivity|]. now split.
Qed.

(** At the end neither way gives size(): the position made from size() says 0, the one that
    next_position makes from the last element says where the last block starts.  The two
    compare equal. *)
Theorem C93_end_refuted : forall s, reach anyop s -> 0 < size s ->
  exists e p q, p_position None (size s) s = Ok e /\ p_position None (size s - 1) s = Ok p /\ p_next s p = Ok q /\
    iter_eqb (fst e) (fst q) = true /\ snd e = snd q /\
    p_logical e = 0 /\ p_logical q = size s - 1 - snd p /\ p_logical e <> size s /\ p_logical q <> size s.
Proof using Hdup.
  intros s Hr Hs. pose proof (reach_good cat managed dup copyable Hdup _ _ Hr) as G. unfold size in *.
  destruct (p_position_at s None (cs s - 1) G ltac:(lia)) as (q & b & t & E & H1 & H2 & Ep).
  assert (t = []) as ->.
  { destruct t as [|c t]; [reflexivity|]. exfalso. destruct G as (Gw & Gc & _). rewrite E in Gw, Gc. apply wfl_app in Gw.
    destruct Gw as (_ & _ & _ & _ & (W & _) & _). rewrite Gc in H1.
    assert (T : tot (q ++ b :: c :: t) = tot q + (bs b + (bs c + tot t))) by (clear; induction q as [|x q IH]; cbn [app tot] in *; lia). lia. }
  assert (L : length (bl s) = S (length q)) by (rewrite E, app_length; cbn [length]; lia).
  assert (Gc : cs s = tot q + bs b) by (destruct G as (_ & Gc & _); now rewrite Gc, E, tot_snoc).
  exists (ITR (blank (length (bl s))) (length (bl s)) (length (bl s)), 0), (at_block s (length q) b, cs s - 1 - tot q),
    (ITR (NODE (dcat (bd b)) (bp b) (bs b) (bd b) (S (length q))) (S (length q)) (length (bl s)), 0).
  split; [|split; [exact Ep|split]].
  - unfold p_position. rewrite Nat.eqb_refl. unfold it_end, make, ordered. cbn [ipos iend]. rewrite Nat.eqb_refl. reflexivity.
  - unfold p_next. cbn [fst snd at_block cur nsize]. destruct (Nat.ltb_spec (S (cs s - 1 - tot q)) (bs b)); [lia|].
    unfold inc, ordered, at_block. cbn [ipos iend cur ntype npos nsize ndata nindex].
    destruct (Nat.ltb_spec (length q) (length (bl s))); [|lia]. destruct (Nat.eqb_spec (S (length q)) (length (bl s))); [|lia]. reflexivity.
  - unfold p_logical, iter_eqb. cbn [fst snd cur npos ipos iend blank at_block]. rewrite L, !Nat.eqb_refl. cbn [negb andb].
    split; [reflexivity|]. split; [reflexivity|]. split; [reflexivity|]. split; [lia|]. split; [lia|]. lia.
Qed.

End T.

(** The container s2 of MtvProps.v has eight rows; its last block starts at row 7. *)
Example C93_case : xreach anyop s2 /\ size s2 = 8 /\
  exists p q e, p_position None 4 s2 = Ok p /\ p_logical p = 4 /\ p_next s2 p = Ok q /\ p_logical q = 5 /\
    p_position None 8 s2 = Ok e /\ p_logical e = 0.
Proof.
  split; [apply s2_reach|]. split; [vm_compute; reflexivity|]. eexists. eexists. eexists.
  split; [vm_compute; reflexivity|]. split; [vm_compute; reflexivity|]. split; [vm_compute; reflexivity|].
  split; [vm_compute; reflexivity|]. split; vm_compute; reflexivity.
Qed.

(** One query for all the theorems of this file. *)
Definition MtvPosProps_theorems := (@C93_logical_partial, @C93_end_refuted).
Print Assumptions MtvPosProps_theorems.
