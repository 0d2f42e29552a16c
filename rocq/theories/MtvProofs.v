(** Infrastructure for the multi_type_vector proofs: invariants, symbolic
    execution of the model on a window of blocks, and closing tactics. *)
From Coq Require Import List ZArith Lia Bool ZifyBool.
From Verif Require Import Base MtvModel.
Import ListNotations.

(** Weakest precondition of a call that must return normally. *)
Definition wp {A} (m : res A) (Q : A -> Prop) : Prop :=
  match m with Ok a => Q a | _ => False end.

Lemma wp_bind {A B} (m : res A) (K : A -> res B) Q :
  wp m (fun a => wp (K a) Q) -> wp (bind m K) Q.
Proof. destruct m; simpl; auto. Qed.

Lemma wp_eq {A} (m r : res A) Q : m = r -> wp r Q -> wp m Q.
Proof. now intros ->. Qed.

Lemma wp_beq {A B} (m r : res A) (K : A -> res B) Q :
  m = r -> wp (bind r K) Q -> wp (bind m K) Q.
Proof. now intros ->. Qed.

Lemma bind_bind {A B C} (m : res A) (f : A -> res B) (g : B -> res C) :
  bind (bind m f) g = bind m (fun a => bind (f a) g).
Proof. destruct m; reflexivity. Qed.

Lemma wp_ok {A} (m : res A) Q : wp m Q -> exists a, m = Ok a /\ Q a.
Proof. destruct m; simpl; intros H; try easy. eauto. Qed.

Lemma wp_mono {A} (m : res A) (P Q : A -> Prop) :
  wp m P -> (forall a, P a -> Q a) -> wp m Q.
Proof. destruct m; simpl; auto. Qed.

(** ** Lists around a window *)

Lemma nth_off {A} (q l : list A) k : nth_error (q ++ l) (k + length q) = nth_error l k.
Proof. rewrite nth_error_app2 by lia. f_equal. lia. Qed.

Lemma set_off {A} (q l : list A) k x :
  set_nth (k + length q) x (q ++ l) = q ++ set_nth k x l.
Proof.
  induction q as [|h t IH]; simpl.
  - now rewrite Nat.add_0_r.
  - rewrite <- plus_n_Sm. simpl. now rewrite IH.
Qed.

Lemma firstn_off {A} (q l : list A) k : firstn (k + length q) (q ++ l) = q ++ firstn k l.
Proof.
  rewrite firstn_app. rewrite firstn_all2 by lia. f_equal. f_equal. lia.
Qed.

Lemma skipn_off {A} (q l : list A) k : skipn (k + length q) (q ++ l) = skipn k l.
Proof. rewrite skipn_app, skipn_all2 by lia. simpl. f_equal. lia. Qed.

Definition bn (b : bool) : nat := if b then 1 else 0.
(** Count of the elements that satisfy a test. *)
Fixpoint cnt {A} (p : A -> bool) (l : list A) : nat :=
  match l with [] => 0 | x :: t => bn (p x) + cnt p t end.

Lemma cnt_app {A} p (a b : list A) : cnt p (a ++ b) = cnt p a + cnt p b.
Proof. induction a as [|x t IH]; simpl; [reflexivity|rewrite IH; lia]. Qed.

(** Replace [n] elements from position [a] on by [x]. *)
Definition splice {A} (a n : nat) (x l : list A) : list A :=
  firstn a l ++ x ++ skipn (a + n) l.

Lemma splice_pre {A} (q l x : list A) a n k :
  a = length q + k -> splice a n x (q ++ l) = q ++ splice k n x l.
Proof.
  intros ->. unfold splice.
  replace (length q + k) with (k + length q) by lia.
  replace (k + length q + n) with ((k + n) + length q) by lia.
  now rewrite firstn_off, skipn_off, <- app_assoc.
Qed.

Lemma splice_in {A} (b l x : list A) k n :
  k + n <= length b -> splice k n x (b ++ l) = splice k n x b ++ l.
Proof.
  intros H. unfold splice.
  rewrite firstn_app, skipn_app.
  replace (k - length b) with 0 by lia. replace (k + n - length b) with 0 by lia.
  simpl. now rewrite app_nil_r, <- !app_assoc.
Qed.

Lemma firstn_rep {A} (x : A) k n : firstn k (repeat x n) = repeat x (Nat.min k n).
Proof.
  revert n; induction k as [|k IH]; intros [|n]; simpl; try reflexivity. now rewrite IH.
Qed.

Lemma skipn_rep {A} (x : A) k n : skipn k (repeat x n) = repeat x (n - k).
Proof.
  revert n; induction k as [|k IH]; intros [|n]; simpl; try reflexivity. now rewrite IH.
Qed.

Section P.
Set Default Proof Using "Type".
Context {V : Type}.
Variable cat : V -> nat.
Variable managed : nat -> bool.
Notation eblk := (@eblk V).
Notation blk := (@blk V).
Notation st := (@st V).

(** ** Invariants *)

(** Logical content of one block. *)
Definition flatb (b : blk) : list (option V) :=
  match bd b with
  | None => repeat None (bs b)
  | Some e => map Some (ev e)
  end.

Definition flatl (l : list blk) : list (option V) := flat_map flatb l.

(** Logical content of the container. *)
Definition flat (s : st) : list (option V) := flatl (bl s).

Fixpoint tot (l : list blk) : nat :=
  match l with [] => 0 | b :: t => bs b + tot t end.

Definition okd (n : nat) (d : option eblk) : Prop :=
  match d with
  | None => True
  | Some e => length (ev e) = n /\ all_cat cat (ecat e) (ev e) = true
  end.

Definition okb (b : blk) : Prop := 0 < bs b /\ okd (bs b) (bd b).

(** Positions are running sums and every block is sound. *)
Fixpoint wfl (p : nat) (l : list blk) : Prop :=
  match l with
  | [] => True
  | b :: t => bp b = p /\ okb b /\ wfl (p + bs b) t
  end.

Definition bcat (b : blk) : option nat := dcat (bd b).

(** Related neighbours. *)
Fixpoint chain (R : option nat -> option nat -> Prop) (l : list (option nat)) : Prop :=
  match l with
  | a :: (b :: _) as t => R a b /\ chain R t
  | _ => True
  end.

Definition Rne (a b : option nat) : Prop := a <> b.
Definition Ree (a b : option nat) : Prop := a = None -> b = None -> False.

(** Positions are running sums, blocks are sound, no two empty blocks meet. *)
Definition good (s : st) : Prop :=
  wfl 0 (bl s) /\ cs s = tot (bl s) /\ chain Ree (map bcat (bl s)).

(** Neighbours differ. *)
Definition canon (s : st) : Prop := chain Rne (map bcat (bl s)).

Lemma bcat_some p z i c l : bcat (BK p z (Some (EB i c l))) = Some c.
Proof. reflexivity. Qed.
Lemma bcat_none p z : bcat (BK p z None) = None.
Proof. reflexivity. Qed.

Definition refb (b : blk) : list ((nat * nat) * nat) :=
  match bd b with Some e => [(eid e, ecat e)] | None => [] end.
(** Element blocks held by the container. *)
Definition refs (l : list blk) := flat_map refb l.

Definition mob (b : blk) : list V :=
  match bd b with Some e => own managed (ecat e) (ev e) | None => [] end.
(** Heap objects held by the container. *)
Definition mo (l : list blk) : list V := flat_map mob l.

(** Objects in rows [a, a+n) of a block, handed out when they are not deleted. *)
Definition taken (ow : bool) (b : blk) (a n : nat) : list V :=
  if ow then []
  else match bd b with
       | Some e => own managed (ecat e) (firstn n (skipn a (ev e)))
       | None => []
       end.

(** Effect of one operation: content [F], canonicity kept, ownership account. *)
Definition step0 (s s' : st) (F : list (option V)) (ins out : list V) : Prop :=
  good s' /\ flat s' = F /\ (canon s -> canon s') /\ tag s' = tag s /\
  (forall p, cnt p (freed s') + cnt p (mo (bl s')) + cnt p out
           = cnt p (freed s) + cnt p (mo (bl s)) + cnt p ins).

(** Objects of the last block of a range that the overwritten rows held, when
    their type differs from the new one (main 3251-3258). *)
Definition leaked (c : nat) (b : blk) (e : nat) : list V :=
  match bd b with
  | Some x => if (ecat x =? c) || (bp b + bs b =? e) then []
              else own managed (ecat x) (firstn (e - bp b) (ev x))
  | None => []
  end.

(** The row [e] is the last of [b] and the block after it has category [c]. *)
Definition at_end (b : blk) (e : nat) (t : list blk) (c : nat) : Prop :=
  S e = bp b + bs b /\ match t with x :: _ => bcat x = Some c | [] => False end.

(** Effect of a range set that starts in a block of the same type. *)
Definition range_eq_post (s s' : st) (F : list (option V)) (ins lost : list V) (X : Prop) : Prop :=
  good s' /\ flat s' = F /\ (canon s -> ~ X -> canon s') /\ tag s' = tag s /\
  (forall p, cnt p (freed s') + cnt p (mo (bl s')) + cnt p lost
           = cnt p (freed s) + cnt p (mo (bl s)) + cnt p ins).

(** resize computes the right offset into the block it cuts (main 5128). *)
Definition shrink_ok (b : blk) (n : nat) : Prop :=
  match bd b with
  | Some x => managed (ecat x) = false \/ bp b = 0 \/ n = bp b + bs b
  | None => True
  end.

(** Event account. *)
Definition events (s s' : st) : Prop :=
  forall p, cnt p (acq s') + cnt p (rel s) + cnt p (refs (bl s))
          = cnt p (acq s) + cnt p (rel s') + cnt p (refs (bl s')).

Definition step (s s' : st) (F : list (option V)) (ins out : list V) : Prop :=
  step0 s s' F ins out /\ events s s'.

(** The block with index [i] contains row [pos]. *)
Definition at_pos (s : st) (i pos : nat) : Prop :=
  exists b, nth_error (bl s) i = Some b /\ bp b <= pos < bp b + bs b.

(** ** Lemmas *)

Lemma tot_app l1 l2 : tot (l1 ++ l2) = tot l1 + tot l2.
Proof. induction l1 as [|b t IH]; simpl; lia. Qed.

Lemma wfl_app l1 l2 p : wfl p (l1 ++ l2) <-> wfl p l1 /\ wfl (p + tot l1) l2.
Proof.
  clear managed.
  revert p; induction l1 as [|b t IH]; intros p; simpl.
  - rewrite Nat.add_0_r. tauto.
  - rewrite IH. rewrite Nat.add_assoc. tauto.
Qed.

Lemma flatl_app l1 l2 : flatl (l1 ++ l2) = flatl l1 ++ flatl l2.
Proof. unfold flatl. now rewrite flat_map_app. Qed.

Lemma flatl_nil : flatl [] = [].
Proof. reflexivity. Qed.

Lemma flatl_cons b l : flatl (b :: l) = flatb b ++ flatl l.
Proof. reflexivity. Qed.

Lemma flatb_length b : okb b -> length (flatb b) = bs b.
Proof.
  unfold okb, okd, flatb. destruct (bd b) as [e|]; intros [H1 H2].
  - now rewrite map_length.
  - now rewrite repeat_length.
Qed.

Lemma flatl_length p l : wfl p l -> length (flatl l) = tot l.
Proof.
  revert p; induction l as [|b t IH]; intros p; simpl; [reflexivity|].
  intros (H1 & H2 & H3). rewrite app_length, (flatb_length b H2), (IH _ H3). reflexivity.
Qed.

Lemma refs_app l1 l2 : refs (l1 ++ l2) = refs l1 ++ refs l2.
Proof. unfold refs. now rewrite flat_map_app. Qed.
Lemma mo_app l1 l2 : mo (l1 ++ l2) = mo l1 ++ mo l2.
Proof. unfold mo. now rewrite flat_map_app. Qed.

Lemma refs_cons b l : refs (b :: l) = refb b ++ refs l.
Proof. reflexivity. Qed.
Lemma refs_nil : refs [] = [].
Proof. reflexivity. Qed.
Lemma mo_nil : mo [] = [].
Proof. reflexivity. Qed.
Lemma mo_cons b l : mo (b :: l) = mob b ++ mo l.
Proof. reflexivity. Qed.

Lemma all_cat_app c (a b : list V) : all_cat cat c (a ++ b) = all_cat cat c a && all_cat cat c b.
Proof. unfold all_cat. apply forallb_app. Qed.

Lemma all_cat_firstn c n (a : list V) : all_cat cat c a = true -> all_cat cat c (firstn n a) = true.
Proof.
  revert n; induction a as [|x t IH]; intros [|n]; simpl; auto.
  rewrite andb_true_iff. intros [H1 H2]. rewrite H1. simpl. now apply IH.
Qed.

Lemma all_cat_skipn c n (a : list V) : all_cat cat c a = true -> all_cat cat c (skipn n a) = true.
Proof.
  revert n; induction a as [|x t IH]; intros [|n]; simpl; auto.
  rewrite andb_true_iff. intros [H1 H2]. now apply IH.
Qed.

Lemma cnt_own_app p c (a b : list V) :
  cnt p (own managed c (a ++ b)) = cnt p (own managed c a) + cnt p (own managed c b).
Proof. unfold own. destruct (managed c); [apply cnt_app|reflexivity]. Qed.

Lemma cnt_own_split p c k (a : list V) :
  cnt p (own managed c a) = cnt p (own managed c (firstn k a)) + cnt p (own managed c (skipn k a)).
Proof. rewrite <- cnt_own_app. now rewrite firstn_skipn. Qed.

Lemma cnt_own_cons p c (x : V) (a : list V) :
  cnt p (own managed c (x :: a)) = cnt p (own managed c [x]) + cnt p (own managed c a).
Proof. apply (cnt_own_app p c [x] a). Qed.

Lemma cnt_own_nil (p : V -> bool) c : cnt p (own managed c []) = 0.
Proof. unfold own. now destruct (managed c). Qed.

Lemma own_unmanaged c (l : list V) : managed c = false -> own managed c l = [].
Proof. unfold own. now intros ->. Qed.

Lemma cnt_own_slice p c a n (l : list V) :
  cnt p (own managed c (firstn n (skipn a l))) + cnt p (own managed c (firstn a l))
  = cnt p (own managed c (firstn (a + n) l)).
Proof.
  rewrite Nat.add_comm, <- cnt_own_app. f_equal. f_equal.
  revert l; induction a as [|a IH]; intros l; simpl; [reflexivity|].
  destruct l as [|x l]; simpl; [now rewrite firstn_nil|]. now rewrite IH.
Qed.

Lemma cnt_own_rest p c a (l : list V) :
  cnt p (own managed c (skipn a l)) + cnt p (own managed c (firstn a l))
  = cnt p (own managed c l).
Proof. rewrite Nat.add_comm. symmetry. apply cnt_own_split. Qed.

Lemma all_cat_cons c (x : V) l : all_cat cat c (x :: l) = (cat x =? c) && all_cat cat c l.
Proof. reflexivity. Qed.

Lemma wfl_up d p l : wfl p l -> wfl (p + d) (shift_up d l).
Proof. clear managed.
  revert p; induction l as [|b t IH]; intros p; simpl; [tauto|].
  intros (H1 & H2 & H3). split; [lia|]. split; [exact H2|].
  replace (p + d + bs b) with (p + bs b + d) by lia. now apply IH.
Qed.

Lemma wfl_dn d p l : d <= p -> wfl p l -> wfl (p - d) (shift_dn d l).
Proof. clear managed.
  revert p; induction l as [|b t IH]; intros p Hd; simpl; [tauto|].
  intros (H1 & H2 & H3). split; [lia|]. split; [exact H2|].
  replace (p - d + bs b) with (p + bs b - d) by lia. apply IH; [lia|auto].
Qed.

Lemma dn_ok d p l : d <= p -> wfl p l -> forallb (fun b : blk => d <=? bp b) l = true.
Proof. clear managed.
  revert p; induction l as [|b t IH]; intros p Hd; simpl; [tauto|].
  intros (H1 & H2 & H3). apply andb_true_iff. split; [apply Nat.leb_le; lia|].
  apply (IH (p + bs b)); [lia|auto].
Qed.

Lemma wfl_cast p p' l : wfl p l -> p = p' -> wfl p' l.
Proof. now intros H <-. Qed.

Lemma tot_up d l : tot (shift_up d l) = tot l.
Proof. induction l as [|b t IH]; simpl; auto. Qed.
Lemma tot_dn d l : tot (shift_dn d l) = tot l.
Proof. induction l as [|b t IH]; simpl; auto. Qed.
Lemma flatl_up d l : flatl (shift_up d l) = flatl l.
Proof. induction l as [|b t IH]; simpl; f_equal; auto. Qed.
Lemma flatl_dn d l : flatl (shift_dn d l) = flatl l.
Proof. induction l as [|b t IH]; simpl; f_equal; auto. Qed.
Lemma refs_up d l : refs (shift_up d l) = refs l.
Proof. induction l as [|b t IH]; simpl; f_equal; auto. Qed.
Lemma refs_dn d l : refs (shift_dn d l) = refs l.
Proof. induction l as [|b t IH]; simpl; f_equal; auto. Qed.
Lemma mo_up d l : mo (shift_up d l) = mo l.
Proof. induction l as [|b t IH]; simpl; f_equal; auto. Qed.
Lemma mo_dn d l : mo (shift_dn d l) = mo l.
Proof. induction l as [|b t IH]; simpl; f_equal; auto. Qed.
Lemma bcat_up d l : map bcat (shift_up d l) = map bcat l.
Proof. induction l as [|b t IH]; simpl; f_equal; auto. Qed.
Lemma bcat_dn d l : map bcat (shift_dn d l) = map bcat l.
Proof. induction l as [|b t IH]; simpl; f_equal; auto. Qed.
Lemma len_up d (l : list blk) : length (shift_up d l) = length l.
Proof. apply map_length. Qed.
Lemma len_dn d (l : list blk) : length (shift_dn d l) = length l.
Proof. apply map_length. Qed.

(** Replacing a range that starts in one block and ends in a later one. *)
Lemma flat_multi q b1 m b2 t c n g a r f ra k x :
  let s := ST (q ++ b1 :: m ++ b2 :: t) c n g a r f in
  good s -> tot q <= ra -> ra < tot q + bs b1 ->
  tot q + bs b1 + tot m <= ra + k -> ra + k <= tot q + bs b1 + tot m + bs b2 ->
  splice ra k x (flat s)
  = flatl q ++ firstn (ra - tot q) (flatb b1) ++ x
    ++ skipn (ra + k - (tot q + bs b1 + tot m)) (flatb b2) ++ flatl t.
Proof.
  intros s (Hw & _ & _) H1 H2 H3 H4. unfold flat, s in *. cbn [bl] in *.
  apply wfl_app in Hw as [Hq Hw]. cbn [wfl] in Hw. destruct Hw as (_ & Hb1 & Hw).
  apply wfl_app in Hw as [Hm Hw]. cbn [wfl] in Hw. destruct Hw as (_ & Hb2 & Ht).
  apply flatl_length in Hq, Hm, Ht. apply flatb_length in Hb1, Hb2.
  rewrite flatl_app, flatl_cons, flatl_app, flatl_cons.
  unfold splice. rewrite !firstn_app, !skipn_app.
  rewrite Hq, Hb1, Hm.
  rewrite (firstn_all2 (n := ra) (flatl q)) by lia.
  replace (ra - tot q - bs b1) with 0 by lia. cbn [firstn Nat.sub].
  rewrite !app_nil_r, <- !app_assoc.
  rewrite (skipn_all2 (n := ra + k) (flatl q)) by lia.
  rewrite (skipn_all2 (n := ra + k - tot q) (flatb b1)) by lia.
  rewrite (skipn_all2 (n := ra + k - tot q - bs b1) (flatl m)) by lia.
  cbn [app]. f_equal. f_equal. f_equal. f_equal; [f_equal; lia|].
  replace (_ - length (flatb b2)) with 0 by lia. reflexivity.
Qed.

(** Removing a run of blocks. *)
Lemma delete_blocks_spec pre (mid post : list blk) c n g a r f :
  exists mid' : list blk, length mid' = length mid /\
  delete_element_blocks managed (length pre) (length mid) (ST (pre ++ mid ++ post) c n g a r f)
  = Ok (ST (pre ++ mid' ++ post) c n g a (r ++ refs mid) (f ++ mo mid)).
Proof.
  revert pre r f; induction mid as [|b mid IH]; intros pre r f.
  - exists []. cbn. now rewrite !app_nil_r.
  - cbn [length delete_element_blocks].
    assert (delete_element_block managed (length pre) (ST (pre ++ (b :: mid) ++ post) c n g a r f)
      = Ok (ST (pre ++ BK (bp b) (bs b) None :: mid ++ post) c n g a (r ++ refb b) (f ++ mob b))) as E.
    { unfold delete_element_block, data_at, bat. cbn [bl app].
      rewrite nth_error_app_mid. cbn [deref bind]. destruct b as [p z [e|]]; cbn [bd].
      - unfold set_data, bat, destroy, ev_rel. cbn [bl with_ev]. 
        rewrite nth_error_app_mid. cbn [deref bind].
        unfold with_bl. cbn [bl cs nid tag acq rel freed bp bs].
        pose proof (fun y : blk => set_off pre (BK p z (Some e) :: mid ++ post) 0 y) as E0. cbn [Nat.add set_nth] in E0.
        rewrite E0. reflexivity.
      - cbn [refb mob bd bp bs]. now rewrite !app_nil_r. }
    rewrite E. cbn [bind].
    destruct (IH (pre ++ [BK (bp b) (bs b) None]) (r ++ refb b) (f ++ mob b)) as (mid' & Hl & E').
    exists (BK (bp b) (bs b) None :: mid'). cbn [length]. split; [now rewrite Hl|].
    rewrite app_length, Nat.add_1_r, <- !app_assoc in E'. cbn [app] in E'. rewrite E'.
    reflexivity.
Qed.

Lemma del_spec (pre mid mid' post : list blk) c n g a r f :
  length mid' = length mid ->
  del (length pre) (length mid) (ST (pre ++ mid' ++ post) c n g a r f)
  = Ok (ST (pre ++ post) c n g a r f).
Proof.
  intros H. unfold del, nblk. cbn [bl]. rewrite !app_length.
  destruct (Nat.leb_spec (length pre + length mid) (length pre + (length mid' + length post))) as [L|L]; [|lia].
  unfold with_bl. cbn [bl cs nid tag acq rel freed]. f_equal. f_equal.
  rewrite firstn_app_exact. f_equal.
  rewrite app_assoc. rewrite <- H, <- app_length. now rewrite skipn_app_exact.
Qed.

Lemma wp_kill {B} pre mid post L i k c n g a r f (K : st -> res B) Q :
  L = pre ++ mid ++ post -> i = length pre -> k = length mid ->
  wp (K (ST (pre ++ post) c n g a (r ++ refs mid) (f ++ mo mid))) Q ->
  wp (bind (delete_element_blocks managed i k (ST L c n g a r f)) (fun s => bind (del i k s) K)) Q.
Proof.
  intros -> -> -> H.
  destruct (delete_blocks_spec pre mid post c n g a r f) as (mid' & Hl & E).
  rewrite E. cbn [bind]. rewrite (del_spec pre mid mid' post) by auto. exact H.
Qed.

Lemma drop_one {B} pre (b : blk) post (ow : bool) c n g a r f (K : st -> res B) :
  let s := ST (pre ++ b :: post) c n g a r f in
  bind (data_at (length pre) s) (fun d =>
    bind (match d with Some _ => if ow then Ok s else on (length pre) (e_resize 0) s
          | None => Ok s end) (fun s =>
    bind (delete_element_block managed (length pre) s) K))
  = K (ST (pre ++ BK (bp b) (bs b) None :: post) c n g a (r ++ refb b)
             (f ++ if ow then mob b else [])).
Proof.
  intros s. unfold s.
  pose proof (fun x y : blk => set_off pre (x :: post) 0 y) as E0. cbn [Nat.add set_nth] in E0.
  unfold data_at at 1, bat. cbn [bl app].
  rewrite nth_error_app_mid. cbn [deref bind]. destruct b as [p z [e|]]; cbn [bd].
  - destruct ow.
    + unfold delete_element_block, data_at, bat.
      cbn [bind bl]. rewrite nth_error_app_mid. cbn [deref bind bd].
      unfold set_data, bat, destroy, ev_rel. cbn [bl].
      rewrite nth_error_app_mid. cbn [deref bind].
      unfold with_bl. cbn [bl cs nid tag acq rel freed bp bs].
      rewrite E0. reflexivity.
    + unfold on, edata, data_at at 1, bat. cbn [bl].
      rewrite nth_error_app_mid. cbn [deref bind bd].
      unfold e_resize. cbn [Nat.leb bind with_ev].
      unfold set_data at 1, bat. cbn [bl]. rewrite nth_error_app_mid. cbn [deref bind bd].
      unfold with_bl. cbn [bl cs nid tag acq rel freed bp bs].
      rewrite E0.
      unfold delete_element_block, data_at, bat.
      cbn [bind bl]. rewrite nth_error_app_mid. cbn [deref bind bd].
      unfold set_data, bat, destroy, ev_rel. cbn [bl].
      rewrite nth_error_app_mid. cbn [deref bind].
      unfold with_bl. cbn [bl cs nid tag acq rel freed bp bs].
      rewrite E0. unfold with_ev. cbn [firstn ev ecat eid refb bd bp bs]. unfold own.
      now destruct (managed (ecat e)).
  - cbn [bind]. unfold delete_element_block, data_at, bat. cbn [bl].
    rewrite nth_error_app_mid. cbn [deref bind bd refb mob bp bs].
    destruct ow; now rewrite !app_nil_r.
Qed.

Lemma drop_blocks_spec pre (mid post : list blk) (ow : bool) c n g a r f :
  exists mid' : list blk, length mid' = length mid /\
  drop_blocks managed (length pre) (length mid) ow (ST (pre ++ mid ++ post) c n g a r f)
  = Ok (ST (pre ++ mid' ++ post) c n g a (r ++ refs mid) (f ++ if ow then mo mid else [])).
Proof.
  revert pre r f; induction mid as [|b mid IH]; intros pre r f.
  - exists []. cbn. destruct ow; now rewrite !app_nil_r.
  - cbn [length drop_blocks app]. rewrite drop_one.
    destruct (IH (pre ++ [BK (bp b) (bs b) None]) (r ++ refb b) (f ++ if ow then mob b else []))
      as (mid' & Hl & E').
    exists (BK (bp b) (bs b) None :: mid'). cbn [length]. split; [now rewrite Hl|].
    rewrite app_length in E'. cbn [length] in E'. rewrite Nat.add_1_r, <- !app_assoc in E'.
    cbn [app] in E'. rewrite E'. cbn [app]. f_equal. f_equal.
    destruct ow; now rewrite <- ?app_assoc.
Qed.

Lemma wp_drop {B} pre mid post L i k (ow : bool) c n g a r f (K : st -> res B) Q :
  L = pre ++ mid ++ post -> i = length pre -> k = length mid ->
  wp (K (ST (pre ++ post) c n g a (r ++ refs mid) (f ++ if ow then mo mid else []))) Q ->
  wp (bind (drop_blocks managed i k ow (ST L c n g a r f)) (fun s => bind (del i k s) K)) Q.
Proof.
  intros -> -> -> H.
  destruct (drop_blocks_spec pre mid post ow c n g a r f) as (mid' & Hl & E).
  rewrite E. cbn [bind]. rewrite (del_spec pre mid mid' post) by auto. exact H.
Qed.

Lemma wp_drop_guard {B} k i (ow : bool) (s : st) (K : st -> res B) Q :
  S i <= nblk s ->
  wp (bind (bind (drop_blocks managed (S i) (k - 1) ow s) (fun s => del (S i) (k - 1) s)) K) Q ->
  wp (bind (if 1 <? k
            then bind (drop_blocks managed (S i) (k - 1) ow s) (fun s => del (S i) (k - 1) s)
            else Ok s) K) Q.
Proof.
  intros Hi. destruct (Nat.ltb_spec 1 k) as [L|L]; [auto|].
  replace (k - 1) with 0 by lia. cbn [drop_blocks bind]. unfold del.
  destruct (Nat.leb_spec (S i + 0) (nblk s)) as [L1|L1]; [|unfold nblk in *; lia].
  cbn [bind]. unfold with_bl. rewrite Nat.add_0_r, firstn_skipn. now destruct s.
Qed.

(** Canonicity around a window. *)
Lemma chain_mid R q a l : chain R (q ++ a :: l) <-> chain R (q ++ [a]) /\ chain R (a :: l).
Proof.
  induction q as [|x q IH].
  - simpl. tauto.
  - destruct q as [|y q].
    + simpl. destruct l; tauto.
    + cbn [app chain] in *. rewrite IH. tauto.
Qed.

Lemma chain_cons R a b l : chain R (a :: b :: l) <-> R a b /\ chain R (b :: l).
Proof. reflexivity. Qed.

Lemma chain_mid_map {B} R q a b (l : list B) f :
  chain R (q ++ a :: b :: map f l) <-> chain R (q ++ [a]) /\ R a b /\ chain R (b :: map f l).
Proof. rewrite chain_mid. reflexivity. Qed.

Lemma chain_mid2 R b q a l :
  chain R (b :: q ++ a :: l) <-> chain R (b :: q ++ [a]) /\ chain R (a :: l).
Proof. exact (chain_mid R (b :: q) a l). Qed.

Lemma chain_one R a : chain R [a] <-> True.
Proof. reflexivity. Qed.

Lemma chain_tail R a l : chain R (a :: l) -> chain R l.
Proof. destruct l; simpl; tauto. Qed.

Lemma chain_ree y l : chain Ree l -> chain Ree (Some y :: l).
Proof. destruct l; simpl; auto. intros H. split; [|exact H]. intros E; discriminate. Qed.

Lemma chain_pre R q l : chain R (q ++ l) -> chain R q.
Proof.
  revert l; induction q as [|x q IH]; intros l; [easy|].
  destruct q as [|y q]; [easy|]. cbn [app chain]. intros [H1 H2]. split; [auto|]. now apply (IH l).
Qed.

Lemma chain_post R q l : chain R (q ++ l) -> chain R l.
Proof. induction q as [|x q IH]; simpl; auto. intros H. apply IH. now apply chain_tail in H. Qed.

Lemma chain_imp (R R' : option nat -> option nat -> Prop) l :
  (forall a b, R a b -> R' a b) -> chain R l -> chain R' l.
Proof.
  intros H. induction l as [|a l IH]; [easy|].
  destruct l as [|b l]; [easy|].
  intros [H1 H2]. split; [now apply H|now apply IH].
Qed.

Lemma ceqb_true a b : ceqb a b = true <-> a = b.
Proof.
  destruct a, b; simpl; split; intros H; try discriminate; auto.
  - apply Nat.eqb_eq in H. now subst.
  - inversion H. apply Nat.eqb_refl.
Qed.

Lemma ceqb_false a b : ceqb a b = false <-> a <> b.
Proof.
  destruct (ceqb a b) eqn:E.
  - apply ceqb_true in E. split; [discriminate|contradiction].
  - split; [|reflexivity]. intros _ H. apply ceqb_true in H. congruence.
Qed.

(** Splitting at the block that contains a row. *)
Lemma find_block p l row :
  wfl p l -> p <= row < p + tot l ->
  exists q b t, l = q ++ b :: t /\ p + tot q <= row < p + tot q + bs b.
Proof.
  revert p; induction l as [|b t IH]; intros p; simpl; [lia|].
  intros (H1 & H2 & H3) Hr.
  destruct (Nat.lt_ge_cases row (p + bs b)) as [Hlt|Hge].
  - exists [], b, t. simpl. split; [reflexivity|lia].
  - destruct (IH (p + bs b) H3 ltac:(lia)) as (q & b' & t' & E & Hr').
    exists (b :: q), b', t'. simpl. rewrite E. split; [reflexivity|lia].
Qed.

(** What the binary search finds. *)
Lemma lower_bound_spec q b t row p :
  wfl p (q ++ b :: t) -> p + tot q <= row < p + tot q + bs b ->
  lower_bound row (q ++ b :: t) = (if bp b =? row then length q else S (length q)).
Proof.
  revert p; induction q as [|x q IH]; intros p; cbn [app wfl tot lower_bound length].
  - intros (H1 & H2 & H3) Hr.
    destruct (Nat.eqb_spec (bp b) row) as [E|E].
    + destruct (Nat.ltb_spec (bp b) row); [lia|reflexivity].
    + destruct (Nat.ltb_spec (bp b) row) as [L|L]; [|lia]. f_equal.
      destruct t as [|y t]; [reflexivity|]. cbn [lower_bound wfl] in *.
      destruct (Nat.ltb_spec (bp y) row); [lia|reflexivity].
  - intros (H1 & H2 & H3) Hr.
    destruct H2 as [H2 H2'].
    destruct (Nat.ltb_spec (bp x) row) as [L|L]; [|lia].
    rewrite (IH (p + bs x)); [|auto|lia]. destruct (bp b =? row); reflexivity.
Qed.

Lemma wfl_bp q b t p : wfl p (q ++ b :: t) -> bp b = p + tot q.
Proof. clear managed. rewrite wfl_app. simpl. tauto. Qed.

(** get_block_position from a start index at or before the block. *)
Lemma block_pos_spec q1 q2 b t c n g a r f row :
  let s := ST ((q1 ++ q2) ++ b :: t) c n g a r f in
  wfl 0 (bl s) -> c = tot (bl s) ->
  tot (q1 ++ q2) <= row < tot (q1 ++ q2) + bs b ->
  block_pos row (length q1) s = Ok (length (q1 ++ q2)).
Proof.
  intros s Hw Hc Hr. unfold block_pos, nblk. unfold s in *. cbn [bl cs] in *.
  rewrite <- app_assoc in *.
  assert (tot (q1 ++ q2 ++ b :: t) = tot q1 + tot q2 + bs b + tot t) as Ht.
  { rewrite !tot_app. simpl. lia. }
  rewrite tot_app in Hr.
  destruct (Nat.leb_spec c row) as [L|L]; [lia|].
  destruct (Nat.leb_spec (length (q1 ++ q2 ++ b :: t)) (length q1)) as [L1|L1].
  { rewrite !app_length in L1. simpl in L1. lia. }
  simpl.
  pose proof (skipn_off q1 (q2 ++ b :: t) 0) as E. simpl in E. rewrite E. clear E.
  pose proof Hw as Hw'. apply wfl_app in Hw' as [Hw1 Hw2]. simpl in Hw2.
  rewrite (lower_bound_spec q2 b t row (tot q1) Hw2 ltac:(lia)).
  assert (bp b = tot q1 + tot q2) as Hb.
  { apply wfl_bp in Hw2. exact Hw2. }
  rewrite app_length.
  destruct (Nat.eqb_spec (bp b) row) as [E|E].
  - replace (length q1 + length q2) with (length (q1 ++ q2)) by apply app_length.
    rewrite app_assoc. rewrite nth_error_app_mid.
    destruct (Nat.eqb_spec (bp b) row); [reflexivity|lia].
  - replace (length q1 + S (length q2)) with (S (length (q1 ++ q2))) by (rewrite app_length; lia).
    rewrite app_assoc.
    pose proof (nth_off (q1 ++ q2) (b :: t) 1) as E1. cbn [Nat.add] in E1. rewrite E1.
    cbn [nth_error].
    rewrite app_length.
    destruct t as [|y t]; [reflexivity|]. simpl.
    apply wfl_app in Hw2 as [_ Hw2]. simpl in Hw2.
    destruct (Nat.eqb_spec (bp y) row); [lia|reflexivity].
Qed.

Lemma block_pos_out (s : st) row start :
  cs s <= row -> block_pos row start s = Ok (nblk s).
Proof. intros H. unfold block_pos. destruct (Nat.leb_spec (cs s) row); [reflexivity|lia]. Qed.

Lemma walk_back_spec q b t rest c n g a r f row :
  let s := ST (q ++ b :: t ++ rest) c n g a r f in
  wfl 0 (bl s) ->
  tot q <= row < tot q + bs b ->
  walk_back (length (q ++ b :: t)) row s = Ok (Some (length q)).
Proof.
  intros s Hw Hr. revert rest s Hw.
  induction t as [|y t IH] using rev_ind; intros rest s Hw.
  - rewrite app_length, Nat.add_1_r. cbn [walk_back]. unfold pos_at, bat. unfold s in *.
    cbn [bl] in *. cbn [app] in *. rewrite nth_error_app_mid. cbn [deref bind].
    apply wfl_bp in Hw. destruct (Nat.leb_spec (bp b) row); [reflexivity|lia].
  - replace (length (q ++ b :: t ++ [y])) with (S (length (q ++ b :: t)))
      by (rewrite !app_length; simpl; rewrite app_length; simpl; lia).
    cbn [walk_back]. unfold pos_at, bat. unfold s in *. cbn [bl] in *.
    assert (q ++ b :: (t ++ [y]) ++ rest = (q ++ b :: t) ++ y :: rest) as E
      by (rewrite <- !app_assoc; reflexivity).
    rewrite E in *. rewrite nth_error_app_mid. cbn [deref bind].
    pose proof Hw as Hw'. apply wfl_bp in Hw'. rewrite tot_app in Hw'. simpl in Hw'.
    destruct (Nat.leb_spec (bp y) row); [lia|].
    rewrite <- app_assoc in *. cbn [app] in *. apply (IH (y :: rest)). exact Hw.
Qed.

Lemma nth_split_len {A} (l : list A) i :
  i < length l -> exists q b t, l = q ++ b :: t /\ length q = i.
Proof.
  intros H. destruct (nth_error l i) as [x|] eqn:E.
  - apply nth_error_split in E as (q & t & E1 & E2). eauto.
  - apply nth_error_None in E. lia.
Qed.

Lemma div2_le n : Nat.div2 n <= n.
Proof. apply Nat.div2_decr. lia. Qed.

(** get_block_position with a hint. *)
Lemma block_pos_hint_spec h q b t c n g a r f row :
  let s := ST (q ++ b :: t) c n g a r f in
  wfl 0 (bl s) -> c = tot (bl s) ->
  tot q <= row < tot q + bs b ->
  block_pos_hint h row s = Ok (length q).
Proof.
  intros s Hw Hc Hr. unfold block_pos_hint.
  set (bi := match h with Some i => if i <? nblk s then i else 0 | None => 0 end).
  assert (bi < length (q ++ b :: t)) as Hbi.
  { unfold bi, nblk, s; cbn [bl].
    assert (0 < length (q ++ b :: t)) by (rewrite app_length; simpl; lia).
    destruct h as [i|]; [|auto]. destruct (Nat.ltb_spec i (length (q ++ b :: t))); auto. }
  clearbody bi.
  destruct (nth_split_len _ _ Hbi) as (q' & b' & t' & E & Hq').
  unfold pos_at at 1, bat. cbn [bl s]. unfold s. cbn [bl].
  rewrite E at 1. rewrite <- Hq'. rewrite nth_error_app_mid. cbn [deref bind].
  assert (bp b' = tot q') as Hb'.
  { unfold s in Hw. cbn [bl] in Hw. rewrite E in Hw. now apply wfl_bp in Hw. }
  assert (block_pos row 0 s = Ok (length q)) as H0.
  { apply (block_pos_spec [] q b t c n g a r f row); auto. }
  assert (bp b' > row -> exists u, q' = q ++ b :: u) as Hgt.
  { intros Hgt. 
    assert (length q < length q') as Hl.
    { destruct (Nat.lt_ge_cases (length q) (length q')) as [|Hge]; auto. exfalso.
      assert (exists z, q = q' ++ z) as [z Ez].
      { exists (skipn (length q') q). rewrite <- (firstn_skipn (length q') q) at 1. f_equal.
        apply (f_equal (firstn (length q'))) in E. rewrite firstn_app_exact in E.
        rewrite firstn_app in E. replace (length q' - length q) with 0 in E by lia.
        simpl in E. now rewrite app_nil_r in E. }
      subst q. rewrite tot_app in Hr. lia. }
    exists (firstn (length q' - S (length q)) t).
    apply (f_equal (firstn (length q'))) in E. rewrite firstn_app_exact in E.
    rewrite firstn_app in E. rewrite firstn_all2 in E by lia.
    destruct (length q' - length q) as [|m] eqn:Em; [lia|]. simpl in E.
    replace (length q' - S (length q)) with m by lia. now symmetry. }
  destruct (Nat.ltb_spec row (bp b')) as [L|L].
  - destruct (Nat.ltb_spec (Nat.div2 (bp b')) row) as [L1|L1].
    + destruct (Hgt ltac:(lia)) as [u Eu]. subst q'. fold s.
      replace (walk_back (length (q ++ b :: u)) row s) with (@Ok (option nat) (Some (length q))).
      2: { symmetry.
           assert (s = ST (q ++ b :: u ++ b' :: t') c n g a r f) as Es.
           { unfold s. rewrite E. now rewrite <- app_assoc. }
           rewrite Es. apply walk_back_spec; auto. rewrite <- Es. auto. }
      reflexivity.
    + cbn [bind]. fold s. exact H0.
  - assert (length q' <= length q) as Hl.
    { destruct (Nat.le_gt_cases (length q') (length q)) as [|Hgt']; auto. exfalso.
      assert (exists u, q' = q ++ b :: u) as [u Eu].
      { exists (firstn (length q' - S (length q)) t).
        apply (f_equal (firstn (length q'))) in E. rewrite firstn_app_exact in E.
        rewrite firstn_app in E. rewrite firstn_all2 in E by lia.
        destruct (length q' - length q) as [|m] eqn:Em; [lia|]. simpl in E.
        replace (length q' - S (length q)) with m by lia. now symmetry. }
      subst q'. rewrite tot_app in Hb'. simpl in Hb'. lia. }
    assert (exists z, q = q' ++ z) as [z Ez].
    { exists (skipn (length q') q). rewrite <- (firstn_skipn (length q') q) at 1. f_equal.
      apply (f_equal (firstn (length q'))) in E. rewrite firstn_app_exact in E.
      rewrite firstn_app in E. replace (length q' - length q) with 0 in E by lia.
      simpl in E. now rewrite app_nil_r in E. }
    unfold s. subst q. apply block_pos_spec; auto.
Qed.

(** Every way of locating a row gives the block that contains it. *)
Lemma locate_spec h q b t c n g a r f row :
  let s := ST (q ++ b :: t) c n g a r f in
  wfl 0 (bl s) -> c = tot (bl s) ->
  tot q <= row < tot q + bs b ->
  locate h row s = Ok (length q).
Proof.
  intros s Hw Hc Hr. unfold locate.
  assert (length q =? nblk s = false) as E.
  { unfold nblk, s. cbn [bl]. rewrite app_length. simpl. apply Nat.eqb_neq. lia. }
  destruct h as [h|].
  - unfold s. rewrite block_pos_hint_spec; auto. cbn [bind]. fold s. now rewrite E.
  - pose proof (block_pos_spec [] q b t c n g a r f row) as H. simpl in H.
    unfold s. rewrite H; auto. cbn [bind]. fold s. now rewrite E.
Qed.

End P.
