(** Proofs about multi_type_matrix: stores, spots, loops. *)
From Coq Require Import List ZArith Lia Bool.
From Verif Require Import Base MtvModel MtvModel2 MtvSpec MtvProofs MtvWrap MtvBridge MtvBridge2 MtxModel MtxSpec.
Import ListNotations.

Section P.
Set Default Proof Using "All".
Context {V : Type}.
Variable cat : V -> nat.
Variable kind : nat -> option mty.
Notation st := (@MtvModel.st V).
Notation blk := (@MtvModel.blk V).
Notation eblk := (@MtvModel.eblk V).
Notation mtx := (@MtxModel.mtx V).
Notation good := (good cat).
Notation rch := (@reach V cat nm (fun v => v) (fun _ => true) anyop).

Lemma rch_good s : rch s -> good s.
Proof. apply reach_good. reflexivity. Qed.

(** ** Calls on the store *)

Lemma store_step (o : op) (s : st) l' :
  good s -> legal cat nm o (flat s) -> spec o (flat s) = Some l' ->
  exists s', exec cat nm o s = Ok s' /\ good s' /\ flat s' = l' /\ (rch s -> rch s').
Proof.
  intros G L E. pose proof (exec_spec cat nm o s G L) as H. rewrite E in H.
  destruct (wp_ok _ _ H) as (s' & E' & (G' & F' & _)).
  exists s'. split; [exact E'|]. split; [exact G'|]. split; [exact F'|]. intros R.
  eapply r_step with (l := flat s); eauto. now apply (shows_flat cat). exact I.
Qed.

Lemma store_inv (o : op) (s s' : st) :
  good s -> legal cat nm o (flat s) -> exec cat nm o s = Ok s' ->
  exists l', spec o (flat s) = Some l' /\ good s' /\ flat s' = l' /\ (rch s -> rch s').
Proof.
  intros G L E. pose proof (exec_spec cat nm o s G L) as H.
  destruct (spec o (flat s)) as [l'|] eqn:El; [|congruence].
  destruct (store_step o s l' G L El) as (s2 & E2 & G2 & F2 & R2).
  assert (s2 = s') as -> by congruence. exists l'. auto.
Qed.

Lemma drop_inv {A B} (m : res (A * B)) a : drop_it m = Ok a -> exists b, m = Ok (a, b).
Proof. destruct m as [[x y]| |]; cbn; intros E; try discriminate. injection E as <-. eauto. Qed.

Lemma drop_eq {A B} (m : res (A * B)) a b : m = Ok (a, b) -> drop_it m = Ok a.
Proof. now intros ->. Qed.

(** ** Spots: a position object that denotes element [p]. *)

Definition spot (s : st) (p i k z : nat) (d : option eblk) : Prop :=
  exists q b t, bl s = q ++ b :: t /\ length q = i /\ tot q + k = p /\ k < bs b /\ bs b = z /\ bd b = d.

Lemma spot_at s h p : good s -> p < cs s ->
  exists i k z d, position h p s = Ok (i, k) /\ spot s p i k z d.
Proof.
  intros G Hp. destruct (position_at cat s h p G Hp) as (q & b & t & E1 & E2 & E3 & E4).
  exists (length q), (p - tot q), (bs b), (bd b). split; [exact E4|].
  exists q, b, t. repeat split; auto; lia.
Qed.

Lemma spot_bat s p i k z d : spot s p i k z d -> exists b, bat i s = Ok b /\ bs b = z /\ bd b = d.
Proof.
  intros (q & b & t & E & <- & _ & _ & E1 & E2). exists b. split; auto.
  unfold bat. rewrite E, nth_error_app2, Nat.sub_diag by lia. reflexivity.
Qed.

Lemma spot_left s p i k z d : spot s p i k z d -> left_in (i, k) s = Ok (z - k) /\ k < z.
Proof.
  intros H. destruct (spot_bat _ _ _ _ _ _ H) as (b & E & E1 & E2).
  destruct H as (q & b' & t & _ & _ & _ & L & Z & _).
  unfold left_in, size_at. cbn [fst snd]. rewrite E. cbn [bind]. rewrite E1.
  destruct (Nat.leb_spec k z); [split; auto; lia|lia].
Qed.

Lemma spot_data s p i k z d : spot s p i k z d -> data_at i s = Ok d.
Proof.
  intros H. destruct (spot_bat _ _ _ _ _ _ H) as (b & E & E1 & E2).
  unfold data_at. rewrite E. cbn [bind]. now rewrite E2.
Qed.

Lemma wfl_at p q b t : wfl cat p (q ++ b :: t) -> bp b = p + tot q /\ okb cat b /\ wfl cat (p + tot q + bs b) t.
Proof. intros H. apply wfl_app in H as [_ H]. cbn [wfl] in H. tauto. Qed.

Lemma spot_logical s p i k z d : good s -> spot s p i k z d -> logical_position (i, k) s = Ok p.
Proof.
  intros (W & _) (q & b & t & E & <- & <- & _).
  unfold logical_position, pos_at, bat. cbn [fst snd]. rewrite E, nth_error_app2, Nat.sub_diag by lia.
  cbn [nth_error deref bind]. rewrite E in W. apply wfl_at in W as (-> & _). reflexivity.
Qed.

Lemma spot_end s p i k z d : good s -> spot s p i k z d -> p + (z - k) <= cs s.
Proof.
  intros (_ & C & _) (q & b & t & E & <- & <- & L & <- & _). rewrite C, E, tot_app. cbn [tot]. lia.
Qed.

Lemma spot_next s p i k z d : good s -> spot s p i k z d -> p + (z - k) < cs s ->
  exists z' d', spot s (p + (z - k)) (S i) 0 z' d'.
Proof.
  intros (W & C & _) (q & b & t & E & <- & <- & L & <- & _) Hp.
  rewrite C, E, tot_app in Hp. cbn [tot] in Hp.
  destruct t as [|b' t]; [cbn [tot] in Hp; lia|].
  exists (bs b'), (bd b'). exists (q ++ [b]), b', t.
  rewrite E in W. apply wfl_at in W as (_ & _ & W). cbn [wfl] in W. destruct W as (_ & [Z _] & _).
  rewrite app_length, tot_app. cbn [length tot]. rewrite <- app_assoc.
  repeat split; auto; try lia. 
Qed.

(** The elements from offset [k] of a block. *)
Definition chunk (d : option eblk) (k n : nat) : list (option V) :=
  match d with
  | None => repeat None n
  | Some e => map Some (firstn n (skipn k (ev e)))
  end.

Lemma firstn_repeat {A} (x : A) n m : firstn n (repeat x m) = repeat x (Nat.min n m).
Proof. revert m. induction n as [|n IH]; intros [|m]; cbn; auto. now rewrite IH. Qed.
Lemma skipn_repeat {A} (x : A) n m : skipn n (repeat x m) = repeat x (m - n).
Proof. revert m. induction n as [|n IH]; intros [|m]; cbn; auto. Qed.

Lemma firstn_firstn_app {A} (l l' : list A) n : n <= length l -> firstn n (l ++ l') = firstn n l.
Proof. intros H. rewrite firstn_app. replace (n - length l) with 0 by lia. apply app_nil_r. Qed.

Lemma spot_chunk s p i k z d n : good s -> spot s p i k z d -> n <= z - k ->
  firstn n (skipn p (flat s)) = chunk d k n /\ length (chunk d k n) = n.
Proof.
  intros (W & _) (q & b & t & E & <- & <- & L & <- & <-) Hn.
  rewrite E in W. pose proof (wfl_at _ _ _ _ W) as (_ & [Z O] & _). apply wfl_app in W as [Wq _].
  assert (firstn n (skipn (tot q + k) (flat s)) = firstn n (skipn k (flatb b))) as ->.
  { unfold flat. rewrite E, flatl_app, flatl_cons.
    rewrite skipn_app. rewrite (flatl_length cat 0 q Wq).
    replace (tot q + k - tot q) with k by lia.
    rewrite skipn_all2 by (rewrite (flatl_length cat 0 q Wq); lia). cbn [app].
    rewrite skipn_app. apply firstn_firstn_app. rewrite skipn_length, (flatb_length cat b); [lia|split; auto]. }
  unfold chunk, flatb, okd in *. destruct (bd b) as [e|].
  - destruct O as [Le _]. rewrite skipn_map, firstn_map. split; [reflexivity|].
    rewrite map_length, firstn_length, skipn_length. lia.
  - rewrite skipn_repeat, firstn_repeat, repeat_length. split; [f_equal; lia|reflexivity].
Qed.

Lemma spot_cat s p i k z e : good s -> spot s p i k z (Some e) -> 
  length (ev e) = z /\ forall v, In v (ev e) -> cat v = ecat e.
Proof.
  intros (W & _) (q & b & t & E & <- & <- & L & <- & Eb).
  rewrite E in W. apply wfl_at in W as (_ & [Z O] & _). unfold okd in O. rewrite Eb in O. destruct O as [O1 O2].
  split; [exact O1|]. intros v Hv. unfold all_cat in O2. rewrite forallb_forall in O2. now apply Nat.eqb_eq, O2.
Qed.

(** A section of a block that holds at least one cell. *)
Lemma spot_node s p i k z d n : good s -> spot s p i k z d -> 0 < n <= z - k ->
  (forall v, In (Some v) (firstn n (skipn p (flat s))) -> kind (cat v) <> None) ->
  exists nd, node_of kind (i, k) n s = Ok nd /\ nd = ND (ntype nd) k n d /\ node_ok cat kind nd /\
    node_cells nd = firstn n (skipn p (flat s)) /\
    match ntype nd with None => d = None | Some _ => d <> None end.
Proof.
  intros G S Hn Hk. destruct (spot_chunk s p i k z d n G S ltac:(lia)) as [C1 C2].
  rewrite C1 in Hk.
  unfold node_of. cbn [fst snd]. rewrite (spot_data _ _ _ _ _ _ S). cbn [bind].
  destruct d as [e|]; unfold to_mtm, dcat; cbn [option_map].
  - destruct (spot_cat _ _ _ _ _ _ G S) as [L A].
    assert (forall v, In v (firstn n (skipn k (ev e))) -> cat v = ecat e) as A'.
    { intros v Hv. apply A. rewrite <- (firstn_skipn k (ev e)). apply in_or_app. right.
      rewrite <- (firstn_skipn n (skipn k (ev e))). apply in_or_app. now left. }
    cbn [chunk] in *. rewrite map_length in C2.
    destruct (firstn n (skipn k (ev e))) as [|v0 vs] eqn:Ev; [cbn in C2; lia|].
    assert (kind (ecat e) <> None) as K.
    { rewrite <- (A' v0) by (left; reflexivity). apply Hk. left. reflexivity. }
    destruct (kind (ecat e)) as [y|] eqn:Ek; [|congruence]. cbn [bind].
    eexists. split; [reflexivity|]. cbn [ntype]. split; [reflexivity|].
    unfold node_ok, node_cells. cbn [nsize ndata noff ntype]. rewrite Ev.
    split; [|split; [now rewrite C1|discriminate]].
    split; [lia|]. split; [rewrite map_length; exact C2|].
    intros x Hx. apply in_map_iff in Hx as (v & <- & Hv). cbn [kind_of]. rewrite (A' v Hv), Ek. reflexivity.
  - eexists. split; [reflexivity|]. cbn [ntype]. split; [reflexivity|].
    unfold node_ok, node_cells. cbn [nsize ndata noff ntype chunk] in *. rewrite C1.
    split; [|auto]. split; [lia|]. split; [exact C2|].
    intros x Hx. apply repeat_spec in Hx as ->. reflexivity.
Qed.

(** ** Walking the rows of one column *)

Lemma firstn_add {A} n m (l : list A) : firstn (n + m) l = firstn n l ++ firstn m (skipn n l).
Proof. revert l. induction n as [|n IH]; intros [|a l]; cbn; auto. now rewrite firstn_nil. now rewrite IH. Qed.
Lemma skipn_add {A} n m (l : list A) : skipn n (skipn m l) = skipn (m + n) l.
Proof. revert l. induction m as [|m IH]; intros [|a l]; cbn; auto. now rewrite skipn_nil. Qed.

Lemma in_firstn_le {A} (x : A) n m l : n <= m -> In x (firstn n l) -> In x (firstn m l).
Proof.
  intros H Hi. replace m with (n + (m - n)) by lia. rewrite firstn_add. apply in_or_app. now left.
Qed.

Lemma walk_rows_spec s : good s -> forall fuel p i k z d rem,
  spot s p i k z d -> 0 < rem -> rem < fuel -> p + rem <= cs s ->
  (forall v, In (Some v) (firstn rem (skipn p (flat s))) -> kind (cat v) <> None) ->
  exists nds p', walk_rows kind fuel (i, k) rem s = Ok (nds, p') /\
    Forall (node_ok cat kind) nds /\ flat_map node_cells nds = firstn rem (skipn p (flat s)).
Proof.
  intros G fuel. induction fuel as [|fuel IH]; intros p i k z d rem S Hr Hf Hp Hk; [lia|].
  cbn [walk_rows]. destruct (spot_left _ _ _ _ _ _ S) as [El Lk]. rewrite El. cbn [bind].
  set (sec := Nat.min (z - k) rem).
  destruct (spot_node s p i k z d sec G S) as (nd & E & _ & Ok1 & C & _).
  { lia. } { intros v Hv. apply Hk. eapply in_firstn_le; [|exact Hv]. lia. }
  rewrite E. cbn [bind fst].
  destruct (Nat.eqb_spec (rem - sec) 0) as [Z|Z].
  - exists [nd], (Datatypes.S i, 0). split; [reflexivity|]. split; [auto|].
    cbn [flat_map]. rewrite C, app_nil_r. f_equal. lia.
  - assert (sec = z - k) as Es by lia.
    destruct (spot_next s p i k z d G S ltac:(lia)) as (z' & d' & S'). rewrite <- Es in S'.
    destruct (IH _ _ _ _ _ (rem - sec) S' ltac:(lia) ltac:(lia) ltac:(lia)) as (nds & p' & E2 & O2 & C2).
    { intros v Hv. apply Hk. replace rem with (sec + (rem - sec)) by lia. rewrite firstn_add.
      apply in_or_app. right. rewrite skipn_add. exact Hv. }
    rewrite E2. cbn [bind]. exists (nd :: nds), p'. split; [reflexivity|]. split; [auto|].
    cbn [flat_map]. rewrite C, C2. transitivity (firstn (sec + (rem - sec)) (skipn p (flat s))); [|f_equal; lia].
    rewrite firstn_add. now rewrite skipn_add.
Qed.

(** ** Reading cells *)

Definition mgood (m : mtx) : Prop := rch (store m) /\ cs (store m) = rows m * cols m.

Lemma mgood_good (m : mtx) : mgood m -> good (store m).
Proof. intros [R _]. now apply rch_good. Qed.

Lemma mget_eq (m : mtx) i j : mgood m ->
  mget i j m = match nth_error (flat (store m)) (rows m * j + i) with Some x => Ok x | None => Throw E_out_of_range end.
Proof. intros H. unfold mget, get_pos. apply (get_eq cat). now apply mgood_good. Qed.

Lemma pos_lt (m : mtx) i j : i < rows m -> j < cols m -> rows m * j + i < rows m * cols m.
Proof. intros H1 H2. nia. Qed.

Lemma pos_inj r i j i' j' : i < r -> i' < r -> r * j + i = r * j' + i' -> i = i' /\ j = j'.
Proof. intros H1 H2 H3. assert (j = j') by nia. subst. lia. Qed.

Lemma len_store (m : mtx) : mgood m -> length (flat (store m)) = rows m * cols m.
Proof. intros H. rewrite (len_flat cat) by now apply mgood_good. apply H. Qed.

Lemma mget_some (m : mtx) i j : mgood m -> i < rows m -> j < cols m ->
  exists x, mget i j m = Ok x /\ nth_error (flat (store m)) (rows m * j + i) = Some x.
Proof.
  intros H Hi Hj. rewrite (mget_eq m i j H). destruct (nth_error _ _) as [x|] eqn:E; [eauto|].
  apply nth_error_None in E. rewrite (len_store m H) in E. pose proof (pos_lt m i j Hi Hj). lia.
Qed.

Lemma column_cells (m : mtx) i n j : mgood m -> i + n <= rows m -> j < cols m ->
  map Ok (firstn n (skipn (rows m * j + i) (flat (store m)))) = map (fun a => mget a j m) (seq i n).
Proof.
  intros H Hi Hj. revert i Hi. induction n as [|n IH]; intros i Hi; [reflexivity|].
  cbn [seq map]. destruct (mget_some m i j H ltac:(lia) Hj) as (x & E1 & E2).
  assert (skipn (rows m * j + i) (flat (store m)) = x :: skipn (rows m * j + S i) (flat (store m))) as ->.
  { clear -E2. revert E2. generalize (flat (store m)) as l. replace (rows m * j + S i) with (S (rows m * j + i)) by lia.
    generalize (rows m * j + i) as p. intros p l. revert p. induction l as [|y l IH]; intros [|p] E; cbn in *; try discriminate.
    - now injection E as ->.
    - apply (IH p E). }
  cbn [firstn map]. rewrite E1, (IH (S i)) by lia. reflexivity.
Qed.

Lemma supported_in (m : mtx) : supported cat kind m -> mgood m ->
  forall i n j v, i + n <= rows m -> j < cols m ->
  In (Some v) (firstn n (skipn (rows m * j + i) (flat (store m)))) -> kind (cat v) <> None.
Proof.
  intros S G i n j v Hi Hj Hv. apply (in_map Ok) in Hv. rewrite column_cells in Hv by auto.
  apply in_map_iff in Hv as (a & E & Ha). apply in_seq in Ha. apply (S a j v); auto. lia.
Qed.

Lemma mpos_spot (m : mtx) h i j : mgood m -> i < rows m -> j < cols m ->
  exists b k z d, mposition h i j m = Ok (b, k) /\ spot (store m) (rows m * j + i) b k z d.
Proof.
  intros H Hi Hj. unfold mposition, get_pos. apply spot_at; [now apply mgood_good|].
  rewrite (proj2 H). now apply pos_lt.
Qed.

(** ** walk over a sub-matrix *)

Lemma walk_cols_spec (m : mtx) i n : mgood m -> supported cat kind m -> 0 < n -> i + n <= rows m ->
  forall k j p, j + k <= cols m ->
  exists nds, walk_cols kind (seq j k) i n p m = Ok nds /\ Forall (node_ok cat kind) nds /\
    map Ok (flat_map node_cells nds) = area m i n j k.
Proof.
  intros G S Hn Hi k. induction k as [|k IH]; intros j p Hj.
  { exists []. repeat split; auto. }
  cbn [seq walk_cols].
  destruct (mpos_spot m (Some (fst p)) i j G ltac:(lia) ltac:(lia)) as (b & o & z & d & E & Sp).
  rewrite E. cbn [bind].
  destruct (walk_rows_spec (store m) (mgood_good m G) (Datatypes.S n) _ _ _ _ _ n Sp Hn ltac:(lia)) as (nds & p' & E1 & O1 & C1).
  { rewrite (proj2 G). assert (rows m * j + rows m <= rows m * cols m) by nia. lia. }
  { intros v Hv. apply (supported_in m S G i n j v); auto. lia. }
  rewrite E1. cbn [bind].
  destruct (IH (Datatypes.S j) p' ltac:(lia)) as (nds2 & E2 & O2 & C2). rewrite E2. cbn [bind].
  exists (nds ++ nds2). split; [reflexivity|]. split; [apply Forall_app; auto|].
  rewrite flat_map_app, map_app, C2, C1. unfold area. cbn [seq flat_map].
  f_equal. apply column_cells; auto. lia.
Qed.
End P.
