(** Properties of the calls of multi_type_vector that work on two containers: transfer
    (C43) and range swap (C44).  The specification is in MtvSpec.v. *)
From Coq Require Import List ZArith Lia Bool Permutation.
From Verif Require Import Base MtvModel MtvModel2 MtvXfer MtvSpec MtvProofs MtvWrap MtvAppend MtvBridge MtvBridge2
  MtvXferHole MtvXferProofs MtvSwapExch MtvSwapMain MtvProps.
Import ListNotations.

Section T.
Set Default Proof Using "Type".
Context {V : Type}.
Variable cat : V -> nat.
Variable managed : nat -> bool.
Variable dup : V -> V.
Variable copyable : nat -> bool.
(** Copying a value keeps its type. *)
Hypothesis Hdup : forall v, cat (dup v) = cat v.
Notation st := (@st V).
Notation op := (@op V).
Notation reach := (@reach V cat managed dup copyable).
Notation transfer := (@transfer V managed).
Notation swap_range := (@swap_range V cat managed).
Notation object := (@object V cat managed).
Notation objects := (@objects V cat managed).

Ltac good_of H := pose proof (reach_good cat managed dup copyable Hdup _ _ H).

(** ** Helpers *)

(** The rows [a..b] of [s'] are the entries [x], the others those of [s]. *)
Lemma rows_calls (s s' : st) a n x :
  good cat s -> good cat s' -> flat s' = splice a n x (flat s) -> length x = n -> a + n <= cs s ->
  size s' = size s /\
  (forall j y, nth_error x j = Some y -> get (a + j) s' = Ok y) /\
  (forall j, j < a \/ a + n <= j -> get j s' = get j s).
Proof.
  intros G G' F L Hn. pose proof (get_splice cat s s' a n x G G' F Hn) as Hget.
  split; [rewrite (size_splice cat s s' a n x G G' F Hn); unfold size in *; lia|]. split.
  - intros j y Hj. assert (j < length x) by (apply nth_error_Some; congruence).
    rewrite Hget. destruct (Nat.ltb_spec (a + j) a); [lia|].
    destruct (Nat.ltb_spec (a + j) (a + length x)); [|lia].
    replace (a + j - a) with j by lia. now rewrite Hj.
  - intros j Hj. rewrite Hget. destruct (Nat.ltb_spec j a); [reflexivity|].
    destruct (Nat.ltb_spec j (a + length x)); [lia|]. f_equal. lia.
Qed.

Lemma len_rows (s : st) a n : good cat s -> a + n <= cs s -> length (firstn n (skipn a (flat s))) = n.
Proof. intros G H. rewrite firstn_length, skipn_length, (len_flat cat s G). lia. Qed.

Lemma get_rows (s : st) a n j : good cat s -> a + n <= cs s -> j < n ->
  exists y, get (a + j) s = Ok y /\ nth_error (firstn n (skipn a (flat s))) j = Some y.
Proof.
  intros G H Hj. rewrite nth_rows by auto. rewrite (get_eq cat s (a + j) G).
  destruct (nth_error (flat s) (a + j)) as [y|] eqn:E; [eauto|].
  apply nth_error_None in E. rewrite (len_flat cat s G) in E. lia.
Qed.

Lemma type_of_get (s s' : st) i j : good cat s -> good cat s' -> get i s = get j s' -> get_type i s = get_type j s'.
Proof. intros G G' E. now rewrite (get_type_eq cat s i G), (get_type_eq cat s' j G'), E. Qed.

Lemma count_objects (s : st) l a n p : good cat s -> shows s l ->
  cnt p (flat_map (oown cat managed) (firstn n (skipn a (flat s)))) = count p (objects (firstn n (skipn a l))).
Proof.
  intros G S. rewrite (shows_eq cat s l G S), <- cnt_count.
  reflexivity.
Qed.

(** ** C43: transfer *)

Theorem C43_transfer : forall s d h a b dp,
  reach anyop s -> reach anyop d -> a <= b -> b < size s -> dp + (b - a) < size d ->
  exists s' d' i,
    transfer h a b dp s d = Ok (s', d', i) /\ reach anyop s' /\ reach anyop d' /\
    size s' = size s /\ size d' = size d /\
    (forall j, a + j <= b ->
       get (dp + j) d' = get (a + j) s /\ get_type (dp + j) d' = get_type (a + j) s /\
       get (a + j) s' = Ok None /\ is_empty (a + j) s' = Ok true) /\
    (forall j, j < a \/ b < j -> get j s' = get j s /\ get_type j s' = get_type j s) /\
    (forall j, j < dp \/ dp + (b - a) < j -> get j d' = get j d /\ get_type j d' = get_type j d) /\
    in_block s' i a.
Proof using Hdup.
  intros s d h a b dp Hr Hr' Hab Hb Hd. good_of Hr. good_of Hr'. unfold size in Hb, Hd.
  assert (dp + (b - a + 1) <= cs d) as Hd' by lia.
  destruct (wp_ok _ _ (transfer_spec cat managed s d h a b dp H H0 Hab Hb Hd')) as ([[s' d'] i] & E & X & At & Y).
  cbn [fst snd] in *. exists s', d', i. split; [exact E|].
  split; [eapply r_xfer_src; [exact Hr|exact Hr'|exact E]|]. split; [eapply r_xfer_dst; [exact Hr|exact Hr'|exact E]|].
  destruct X as (G1 & F1 & _). destruct Y as (G2 & F2 & _).
  destruct (rows_calls s s' a _ _ H G1 F1) as (A1 & A2 & A3); [apply repeat_length|lia|].
  destruct (rows_calls d d' dp _ _ H0 G2 F2) as (B1 & B2 & B3); [apply len_rows; auto; lia|lia|].
  split; [exact A1|]. split; [exact B1|]. split; [|split; [|split; [|now apply in_at]]].
  - intros j Hj. destruct (get_rows s a (b - a + 1) j H) as (y & Ey & Ny); [lia|lia|].
    assert (get (dp + j) d' = get (a + j) s) as Eg by (rewrite Ey; now apply B2).
    assert (get (a + j) s' = Ok None) as En by (apply A2, nth_error_repeat; lia).
    split; [exact Eg|]. split; [now apply type_of_get|]. split; [exact En|].
    now rewrite (is_empty_eq cat s' _ G1), En.
  - intros j Hj. assert (get j s' = get j s) as Eg by (apply A3; lia).
    split; [exact Eg|]. now apply type_of_get.
  - intros j Hj. assert (get j d' = get j d) as Eg by (apply B3; lia).
    split; [exact Eg|]. now apply type_of_get.
Qed.

(** The objects that the overwritten rows of the destination held are freed, once; the
    transferred objects and all the others are not. *)
Theorem C43_ownership : forall s d ld h a b dp s' d' i,
  reach anyop s -> reach anyop d -> shows d ld -> transfer h a b dp s d = Ok (s', d', i) ->
  forall p, count p (freed s') = count p (freed s) /\
    count p (freed d') = count p (freed d) + count p (objects (firstn (b - a + 1) (skipn dp ld))).
Proof using Hdup.
  intros s d ld h a b dp s' d' i Hr Hr' Hs E p. good_of Hr. good_of Hr'.
  apply (transfer_ok cat) in E as (_ & X & _ & Y); auto. cbn [fst snd] in *.
  destruct X as (_ & _ & _ & _ & X & _), Y as (_ & _ & _ & _ & Y & _).
  rewrite <- !cnt_count. split; [apply X|]. rewrite Y. f_equal. rewrite (count_objects d ld) by auto. symmetry. apply cnt_count.
Qed.

(** Each container reports the blocks that it gets and gives away. *)
Theorem C43_events : forall s d h a b dp s' d' i,
  reach anyop s -> reach anyop d -> transfer h a b dp s d = Ok (s', d', i) ->
  forall p,
    count p (acq s') + count p (rel s) + count p (blocks_held s) =
      count p (acq s) + count p (rel s') + count p (blocks_held s') /\
    count p (acq d') + count p (rel d) + count p (blocks_held d) =
      count p (acq d) + count p (rel d') + count p (blocks_held d').
Proof using Hdup.
  intros s d h a b dp s' d' i Hr Hr' E p. good_of Hr. good_of Hr'.
  apply (transfer_ok cat) in E as (_ & X & _ & Y); auto. cbn [fst snd] in *.
  rewrite <- !cnt_count. destruct X as (_ & _ & _ & _ & _ & X), Y as (_ & _ & _ & _ & _ & Y).
  split; [apply X|apply Y].
Qed.

(** Out of either container: the exception, and a hint does not change that. *)
Theorem C43_out_of_range : forall s ls d h a b dp,
  reach anyop s -> shows s ls -> hint_ok h ls -> b < a \/ size s <= b \/ size d <= dp + (b - a) ->
  transfer h a b dp s d = Throw E_out_of_range.
Proof using Hdup.
  intros s ls d h a b dp Hr Hs Hh Hb. good_of Hr. unfold size in Hb.
  apply (transfer_out cat); auto; [|lia].
  destruct Hh as [Hh|Hh]; [now left|right]. pose proof (size_len s ls Hs) as L. unfold size in L.
  apply (nblk_pos cat); auto. destruct ls; [congruence|cbn in L; lia].
Qed.

Theorem C43_hint : forall s d h a b dp,
  reach anyop s -> 0 < size s -> transfer (Some h) a b dp s d = transfer None a b dp s d.
Proof using Hdup.
  intros s d h a b dp Hr Hs. good_of Hr. unfold MtvXfer.transfer.
  now rewrite (locate_hint_any cat s h a H Hs).
Qed.

(** Transferring back and forth between equally long gaps restores the source. *)
Theorem C43_round_trip : forall s d h h' a b dp,
  reach anyop s -> reach anyop d -> a <= b -> b < size s -> dp + (b - a) < size d ->
  exists s' d' i s2 d2 i2,
    transfer h a b dp s d = Ok (s', d', i) /\ transfer h' dp (dp + (b - a)) a d' s' = Ok (d2, s2, i2) /\
    size s2 = size s /\ forall j, get j s2 = get j s.
Proof using Hdup.
  intros s d h h' a b dp Hr Hr' Hab Hb Hd.
  destruct (C43_transfer s d h a b dp Hr Hr' Hab Hb Hd) as (s' & d' & i & E & R1 & R2 & S1 & S2 & A1 & A2 & A3 & _).
  destruct (C43_transfer d' s' h' dp (dp + (b - a)) a R2 R1) as (d2 & s2 & i2 & E' & _ & _ & _ & T1 & B1 & _ & B3 & _); try lia.
  exists s', d', i, s2, d2, i2. split; [exact E|]. split; [exact E'|]. split; [lia|]. intros j.
  destruct (Nat.lt_ge_cases j a) as [L|L]; [|destruct (Nat.lt_ge_cases b j) as [L1|L1]].
  - rewrite (proj1 (B3 j ltac:(lia))). apply A2. lia.
  - rewrite (proj1 (B3 j ltac:(lia))). apply A2. lia.
  - replace j with (a + (j - a)) by lia. rewrite (proj1 (B1 (j - a) ltac:(lia))). apply A1. lia.
Qed.

(** ** C44: range swap *)

Theorem C44_swap : forall s o a b p,
  reach anyop s -> reach anyop o -> a <= b -> b < size s -> p + (b - a) < size o ->
  exists s' o',
    swap_range a b p s o = Ok (s', o') /\ reach anyop s' /\ reach anyop o' /\
    size s' = size s /\ size o' = size o /\
    (forall j, a + j <= b ->
       get (a + j) s' = get (p + j) o /\ get_type (a + j) s' = get_type (p + j) o /\
       get (p + j) o' = get (a + j) s /\ get_type (p + j) o' = get_type (a + j) s) /\
    (forall j, j < a \/ b < j -> get j s' = get j s /\ get_type j s' = get_type j s) /\
    (forall j, j < p \/ p + (b - a) < j -> get j o' = get j o /\ get_type j o' = get_type j o).
Proof using Hdup.
  intros s o a b p Hr Hr' Hab Hb Hd. good_of Hr. good_of Hr'. unfold size in Hb, Hd.
  assert (p + (b - a + 1) <= cs o) as Hd' by lia.
  destruct (wp_ok _ _ (swap_range_spec cat managed s o a b p H H0 Hab Hb Hd')) as ([s' o'] & E & X & Y).
  cbn [fst snd] in *. exists s', o'. split; [exact E|].
  split; [eapply r_swap_left; [exact Hr|exact Hr'|exact E]|]. split; [eapply r_swap_right; [exact Hr|exact Hr'|exact E]|].
  destruct X as (G1 & F1 & _). destruct Y as (G2 & F2 & _).
  destruct (rows_calls s s' a _ _ H G1 F1) as (A1 & A2 & A3); [apply len_rows; auto; lia|lia|].
  destruct (rows_calls o o' p _ _ H0 G2 F2) as (B1 & B2 & B3); [apply len_rows; auto; lia|lia|].
  split; [exact A1|]. split; [exact B1|]. split; [|split].
  - intros j Hj. destruct (get_rows s a (b - a + 1) j H) as (y & Ey & Ny); [lia|lia|].
    destruct (get_rows o p (b - a + 1) j H0) as (z & Ez & Nz); [lia|lia|].
    assert (get (a + j) s' = get (p + j) o) as E1 by (rewrite Ez; now apply A2).
    assert (get (p + j) o' = get (a + j) s) as E2 by (rewrite Ey; now apply B2).
    split; [exact E1|]. split; [now apply type_of_get|]. split; [exact E2|]. now apply type_of_get.
  - intros j Hj. assert (get j s' = get j s) as Eg by (apply A3; lia).
    split; [exact Eg|]. now apply type_of_get.
  - intros j Hj. assert (get j o' = get j o) as Eg by (apply B3; lia).
    split; [exact Eg|]. now apply type_of_get.
Qed.

(** The entries that go into the other container are of one managed type and replace
    entries of one other type whose neighbours on both sides have the managed type
    (finding M5). *)
Definition closes_gap (ls lo : list (option V)) (a b p : nat) : Prop :=
  exists c c', managed c = true /\ c' <> c /\
    (forall j, a + j <= b -> type_at cat ls (a + j) = Some c /\ type_at cat lo (p + j) = Some c') /\
    0 < p /\ type_at cat lo (p - 1) = Some c /\ type_at cat lo (p + (b - a) + 1) = Some c.

Lemma type_at_some (l : list (option V)) i v : nth_error l i = Some (Some v) -> type_at cat l i = Some (cat v).
Proof. unfold type_at. now intros ->. Qed.

(** No object is freed by a range swap.  Missing for the full statement: swaps that
    close a gap between two blocks of managed elements (see C44_ownership_refuted). *)
Theorem C44_ownership_partial : forall s ls o lo a b p s' o',
  reach anyop s -> reach anyop o -> shows s ls -> shows o lo -> swap_range a b p s o = Ok (s', o') ->
  ~ closes_gap ls lo a b p ->
  forall q, count q (freed s') = count q (freed s) /\ count q (freed o') = count q (freed o).
Proof using Hdup.
  intros s ls o lo a b p s' o' Hr Hr' Hs Ho E Hn q. good_of Hr. good_of Hr'.
  apply (swap_ok cat) in E as (L & X & Y); auto. cbn [fst snd] in *.
  destruct X as (_ & _ & _ & _ & X & _), Y as (_ & _ & _ & _ & Y & _).
  rewrite <- !cnt_count. split; [apply X|]. destruct Y as [Y|Y]; [apply Y|]. exfalso. apply Hn.
  rewrite (shows_eq cat s ls H Hs), (shows_eq cat o lo H0 Ho).
  destruct Y as (c & A1 & (c' & Hc & A2) & Hm & Hp & v & w & N1 & N2 & C1 & C2).
  exists c, c'. split; [exact Hm|]. split; [exact Hc|]. split; [|split; [exact Hp|split]].
  - intros j Hj. destruct (A1 j ltac:(lia)) as (x & Nx & Cx), (A2 j ltac:(lia)) as (y & Ny & Cy).
    rewrite (type_at_some _ _ _ Nx), (type_at_some _ _ _ Ny), Cx, Cy. auto.
  - rewrite (type_at_some _ _ _ N1). now rewrite C1.
  - replace (p + (b - a) + 1) with (p + (b - a + 1)) by lia. rewrite (type_at_some _ _ _ N2). now rewrite C2.
Qed.

Theorem C44_events : forall s o a b p s' o',
  reach anyop s -> reach anyop o -> swap_range a b p s o = Ok (s', o') ->
  forall q,
    count q (acq s') + count q (rel s) + count q (blocks_held s) =
      count q (acq s) + count q (rel s') + count q (blocks_held s') /\
    count q (acq o') + count q (rel o) + count q (blocks_held o) =
      count q (acq o) + count q (rel o') + count q (blocks_held o').
Proof using Hdup.
  intros s o a b p s' o' Hr Hr' E q. good_of Hr. good_of Hr'.
  apply (swap_ok cat) in E as (_ & X & Y); auto. cbn [fst snd] in *.
  rewrite <- !cnt_count. destruct X as (_ & _ & _ & _ & _ & X), Y as (_ & _ & _ & _ & _ & Y).
  split; [apply X|apply Y].
Qed.

Theorem C44_out_of_range : forall s o a b p,
  b < a \/ size s <= b \/ size o <= p + (b - a) ->
  swap_range a b p s o = Throw E_out_of_range.
Proof. intros s o a b p H. unfold size in H. apply (swap_range_out cat). lia. Qed.

(** Swapping twice restores both containers. *)
Theorem C44_twice : forall s o a b p,
  reach anyop s -> reach anyop o -> a <= b -> b < size s -> p + (b - a) < size o ->
  exists s' o' s2 o2,
    swap_range a b p s o = Ok (s', o') /\ swap_range a b p s' o' = Ok (s2, o2) /\
    size s2 = size s /\ size o2 = size o /\
    (forall j, get j s2 = get j s) /\ (forall j, get j o2 = get j o).
Proof using Hdup.
  intros s o a b p Hr Hr' Hab Hb Hd.
  destruct (C44_swap s o a b p Hr Hr' Hab Hb Hd) as (s' & o' & E & R1 & R2 & S1 & S2 & A1 & A2 & A3).
  destruct (C44_swap s' o' a b p R1 R2) as (s2 & o2 & E' & _ & _ & T1 & T2 & B1 & B2 & B3); try lia.
  exists s', o', s2, o2. split; [exact E|]. split; [exact E'|]. split; [lia|]. split; [lia|]. split; intros j.
  - destruct (Nat.lt_ge_cases j a) as [L|L]; [|destruct (Nat.lt_ge_cases b j) as [L1|L1]].
    + rewrite (proj1 (B2 j ltac:(lia))). apply A2. lia.
    + rewrite (proj1 (B2 j ltac:(lia))). apply A2. lia.
    + replace j with (a + (j - a)) by lia. rewrite (proj1 (B1 (j - a) ltac:(lia))). apply A1. lia.
  - destruct (Nat.lt_ge_cases j p) as [L|L]; [|destruct (Nat.lt_ge_cases (p + (b - a)) j) as [L1|L1]].
    + rewrite (proj1 (B3 j ltac:(lia))). apply A3. lia.
    + rewrite (proj1 (B3 j ltac:(lia))). apply A3. lia.
    + replace j with (p + (j - p)) by lia.
      destruct (B1 (j - p) ltac:(lia)) as (_ & _ & -> & _). apply A1. lia.
Qed.
End T.

(** ** Concrete cases *)

(** s2 shows 1 1 2 1 1 _ 5 _ (types); a second container with managed elements. *)
Definition os8 : list (@op xv) :=
  [OSetRange None 1 [(5, 60); (5, 61)]; OSet None 3 (2, 30); OSet None 4 (5, 62); OSet None 6 (1, 40)].
Lemma os8_legal : legal_all xcat xman os8 (repeat None 8).
Proof. unfold os8. xlegal. Qed.
Definition s8 : xst := match run xcat xman os8 (mk_size 1 8) with Ok s => s | _ => mk_empty 0 end.
Definition l8 : list (option xv) :=
  [None; Some (5, 60); Some (5, 61); Some (2, 30); Some (5, 62); None; Some (1, 40); None].
Example s8_reach : xreach anyop s8 /\ shows s8 l8.
Proof. apply (run_reach os8 1 8 s8 os8_legal). vm_compute. reflexivity. Qed.

(** Rows 1..4 of s2 (parts of three blocks) into rows 2..5 of s8, which spans four
    blocks; the managed elements 61 and 62 are freed. *)
Definition xfer28 := transfer xman (Some (Some 0)) 1 4 2 s2 s8.
Example C43_case : xreach anyop s2 /\ xreach anyop s8 /\ shows s8 l8 /\ 4 < size s2 /\ 2 + (4 - 1) < size s8 /\
  exists s' d' i, xfer28 = Ok (s', d', i) /\
    map (fun j => get j s') (seq 0 8) =
      [Ok (Some (1, 10)); Ok None; Ok None; Ok None; Ok None; Ok None; Ok (Some (5, 50)); Ok None] /\
    map (fun j => get j d') (seq 0 8) =
      [Ok None; Ok (Some (5, 60)); Ok (Some (1, 11)); Ok (Some (2, 20)); Ok (Some (1, 12)); Ok (Some (1, 13));
       Ok (Some (1, 40)); Ok None] /\
    map (fun j => block d' j) (seq 0 7) =
      [Some (None, 0, 1); Some (Some 5, 1, 1); Some (Some 1, 2, 1); Some (Some 2, 3, 1); Some (Some 1, 4, 3);
       Some (None, 7, 1); None] /\
    freed s' = [] /\ freed d' = [(5, 61); (5, 62)] /\ i = 1.
Proof.
  split; [apply s2_reach|]. split; [apply s8_reach|]. split; [apply s8_reach|].
  split; [vm_compute; lia|]. split; [vm_compute; lia|].
  destruct xfer28 as [[[s' d'] i]| |] eqn:E; [|vm_compute in E; discriminate..].
  exists s', d', i. split; [reflexivity|]. vm_compute in E. injection E as <- <- <-.
  repeat split; vm_compute; reflexivity.
Qed.
Example C43_out_case : transfer xman (Some None) 5 8 0 s2 s8 = Throw E_out_of_range /\
  transfer xman None 1 4 5 s2 s8 = Throw E_out_of_range /\ transfer xman None 3 1 0 s2 s8 = Throw E_out_of_range.
Proof. repeat split; vm_compute; reflexivity. Qed.

Definition swap28 := swap_range xcat xman 1 4 2 s2 s8.
Example C44_case : xreach anyop s2 /\ xreach anyop s8 /\ 4 < size s2 /\ 2 + (4 - 1) < size s8 /\
  ~ closes_gap xcat xman l2 l8 1 4 2 /\
  exists s' o', swap28 = Ok (s', o') /\
    map (fun j => get j s') (seq 0 8) =
      [Ok (Some (1, 10)); Ok (Some (5, 61)); Ok (Some (2, 30)); Ok (Some (5, 62)); Ok None; Ok None;
       Ok (Some (5, 50)); Ok None] /\
    map (fun j => get j o') (seq 0 8) =
      [Ok None; Ok (Some (5, 60)); Ok (Some (1, 11)); Ok (Some (2, 20)); Ok (Some (1, 12)); Ok (Some (1, 13));
       Ok (Some (1, 40)); Ok None] /\
    freed s' = [] /\ freed o' = [].
Proof.
  split; [apply s2_reach|]. split; [apply s8_reach|]. split; [vm_compute; lia|]. split; [vm_compute; lia|]. split.
  { intros (c & c' & _ & _ & H & _). destruct (H 0 ltac:(lia)) as [H1 _], (H 1 ltac:(lia)) as [H2 _].
    vm_compute in H1, H2. congruence. }
  destruct swap28 as [[s' o']| |] eqn:E; [|vm_compute in E; discriminate..].
  exists s', o'. split; [reflexivity|]. vm_compute in E. injection E as <- <-.
  repeat split; vm_compute; reflexivity.
Qed.
Example C44_out_case : swap_range xcat xman 5 8 0 s2 s8 = Throw E_out_of_range /\
  swap_range xcat xman 1 4 5 s2 s8 = Throw E_out_of_range /\ swap_range xcat xman 3 1 0 s2 s8 = Throw E_out_of_range.
Proof. repeat split; vm_compute; reflexivity. Qed.

(** Finding M5: row 3 of s8 lies between managed elements of type 5.  Swapping it with
    the managed element in row 6 of s2 merges the three, and the element behind it,
    (5, 62), is deleted although the container still stores it. *)
Theorem C44_ownership_refuted :
  exists (s o : xst) s' o', xreach anyop s /\ xreach anyop o /\ swap_range xcat xman 6 6 3 s o = Ok (s', o') /\
    freed o = [] /\ freed o' = [(5, 62)] /\ get 4 o' = Ok (Some (5, 62)).
Proof.
  exists s2, s8. destruct (swap_range xcat xman 6 6 3 s2 s8) as [[s' o']| |] eqn:E; [|vm_compute in E; discriminate..].
  exists s', o'. split; [apply s2_reach|]. split; [apply s8_reach|]. split; [reflexivity|].
  vm_compute in E. injection E as <- <-. repeat split; vm_compute; reflexivity.
Qed.

(** ** Trusted base *)
Definition MtvXfer_theorems :=
  (@C43_transfer, @C43_ownership, @C43_events, @C43_out_of_range, @C43_hint, @C43_round_trip,
   @C44_swap, @C44_ownership_partial, @C44_events, @C44_out_of_range, @C44_twice, @C44_ownership_refuted).
Print Assumptions MtvXfer_theorems.
