(** The array-of-structures container: insert, copy, comparison, histories. *)
From Coq Require Import List ZArith Lia Bool.
From Verif Require Import Base MtvModel MtvModel2 MtvXfer MtvSpec MtvProofs MtvTac MtvWrap MtvBridge MtvBridge2 MtvAos MtvAosSpec.
Import ListNotations.

Section P.
Set Default Proof Using "Type".
Context {V : Type}.
Variable cat : V -> nat.
Variable managed : nat -> bool.
Notation eblk := (@eblk V).
Notation blk := (@blk V).
Notation st := (@st V).
Notation op := (@op V).

Lemma insert_cells_impl_aos_spec (q : list blk) b t c n g a r f pos v0 vs :
  let s := ST (q ++ b :: t) c n g a r f in
  good cat s -> tot q <= pos < tot q + bs b -> all_cat cat (cat v0) vs = true ->
  wp (insert_cells_impl_aos cat pos (length q) (v0 :: vs) s)
     (fun x => step cat managed s (fst x) (splice pos 0 (map Some (v0 :: vs)) (flat s))
                 (own managed (cat v0) (v0 :: vs)) []
               /\ at_pos (fst x) (snd x) pos).
Proof.
  intros s Hg Hpos Hvs.
  unfold s in *. clear s.
  destruct b as [pb zb [[ib cb lb]|]]; cbn [bs bp] in *;
  open_good Hg; unfold insert_cells_impl_aos; step_all; fin.
Qed.

Lemma insert_aos_spec (s : st) h pos v0 vs :
  good cat s -> pos < cs s -> all_cat cat (cat v0) vs = true ->
  wp (insert_aos cat h pos (v0 :: vs) s)
     (fun x => step cat managed s (fst x) (splice pos 0 (map Some (v0 :: vs)) (flat s))
                 (own managed (cat v0) (v0 :: vs)) []
               /\ at_pos (fst x) (snd x) pos).
Proof.
  intros Hg Hp Hv. destruct s as [l c n g a r f]. pose proof Hg as (Hw & Hc & _). cbn [bl cs] in *.
  destruct (find_block cat 0 l pos Hw ltac:(lia)) as (q & b & t & E & H). subst l.
  unfold insert_aos. rewrite (locate_spec cat h q b t c n g a r f pos); auto.
  cbn [bind]. apply insert_cells_impl_aos_spec; auto.
Qed.

(** What a call does, with the event account of this layout. *)
Definition effect_aos (o : op) (s s' : st) (l' : list (option V)) : Prop :=
  good cat s' /\ flat s' = l' /\
  (canon s -> ~ unmerged cat (flat s) o -> canon s') /\
  (~ leaky cat managed (flat s) o ->
   forall p, cnt p (freed s') + cnt p (objects cat managed l') + cnt p (taken_back cat managed o (flat s))
           = cnt p (freed s) + cnt p (objects cat managed (flat s)) + cnt p (given cat managed o)) /\
  (canon s -> ~ exempt_aos cat (flat s) o -> events s s').

Lemma exec_aos_spec (o : op) (s : st) :
  good cat s -> legal cat managed o (flat s) ->
  match spec o (flat s) with
  | Some l' => wp (exec_aos cat managed o s) (fun s' => effect_aos o s s' l')
  | None => exec_aos cat managed o s = Throw E_out_of_range
  end.
Proof.
  intros Hg Hl. pose proof (len_flat cat s Hg) as Hn.
  pose proof (exec_spec cat managed o s Hg Hl) as He.
  destruct o as [h pos v|h pos vs|h a b|h pos|h a b| |a b|h pos vs|h pos n|v| |n| ];
    cbn [exec_aos]; try exact He;
    try (destruct (spec _ (flat s)); [|exact He]; eapply wp_mono; [exact He|];
         intros x (H1 & H2 & H3 & H4 & H5); split; [exact H1|]; split; [exact H2|];
         split; [exact H3|]; split; [exact H4|]; intros Hc Hx; apply H5; [exact Hc|];
         cbn [event_exempt]; unfold exempt_aos in Hx; tauto).
  clear He. cbn [spec legal] in *. destruct Hl as [Hh Ho].
  destruct (Nat.ltb_spec pos (length (flat s))) as [L|L].
  - apply wp_drop_it.
    assert (forall s' i t, step cat managed s s' (splice pos 0 (map Some vs) (flat s)) i t ->
              i = objects cat managed (map Some vs) -> t = [] ->
              effect_aos (OInsert h pos vs) s s' (replace_range pos 0 (map Some vs) (flat s))) as Hstep.
    { intros s' i t [(H1 & H2 & H3 & H4 & H5) H6] -> ->. rewrite replace_splice.
      split; [exact H1|]. split; [exact H2|]. split; [intros; auto|]. split; [|intros; exact H6].
      intros _ p. specialize (H5 p). rewrite <- H2, !(objects_flat cat managed) by auto. exact H5. }
    destruct vs as [|v0 vs].
    + destruct (locate_in cat s h pos Hg ltac:(lia)) as (q & b0 & t & E1 & E2 & E3).
      unfold insert_aos. rewrite E3. cbn [bind]. unfold insert_cells_impl_aos, pos_at, bat.
      rewrite E1, nth_error_app_mid. cbn [deref bind wp fst].
      eapply Hstep; [|reflexivity|reflexivity].
      eapply step_eq; [apply step_refl; auto|]. unfold splice. cbn [app map].
      rewrite Nat.add_0_r. symmetry. apply firstn_skipn.
    + eapply wp_mono; [apply (insert_aos_spec s h pos v0 vs); auto; try lia; now apply one_type_all|].
      cbn beta. intros x (H1 & _). eapply Hstep; eauto. now apply objects_map.
  - unfold drop_it, insert_aos. rewrite (hint_out cat) by (auto; lia). reflexivity.
Qed.

(** ** Copy *)
Section Dup.
Variable dup : V -> V.
Variable copyable : nat -> bool.

Lemma copy_bl_aos_same g : forall l k, fst (copy_bl_aos dup copyable g k l) = copy_bl dup copyable g k l.
Proof.
  induction l as [|b l IH]; intros k; [reflexivity|].
  cbn [copy_bl_aos copy_bl]. destruct (bd b) as [e|].
  - unfold copy_data. destruct (copyable (ecat e)); [|reflexivity].
    specialize (IH (S k)). destruct (copy_bl_aos dup copyable g (S k) l) as [r w]. cbn [fst bind] in *.
    now rewrite IH.
  - specialize (IH (S k)). destruct (copy_bl_aos dup copyable g (S k) l) as [r w]. cbn [fst bind] in *.
    now rewrite IH.
Qed.

Lemma copy_of_aos_same g s : fst (copy_of_aos dup copyable g s) = copy_of dup copyable g s.
Proof.
  unfold copy_of_aos, copy_of. pose proof (copy_bl_aos_same g (bl s) 0) as H.
  destruct (copy_bl_aos dup copyable g 0 (bl s)) as [[l| |] w]; cbn [fst] in H; rewrite <- H; reflexivity.
Qed.

Lemma copy_of_aos_ok g s s' w : copy_of_aos dup copyable g s = (Ok s', w) -> w = [].
Proof.
  unfold copy_of_aos. destruct (copy_bl_aos dup copyable g 0 (bl s)) as [[l| |] u]; congruence.
Qed.

Definition some_of (x : option V) : list V := match x with Some v => [v] | None => [] end.

Lemma before_app_ok (l1 l2 : list (option V)) :
  (forall v, In (Some v) l1 -> copyable (cat v) = true) ->
  before_uncopyable cat copyable (l1 ++ l2) = l1 ++ before_uncopyable cat copyable l2.
Proof.
  induction l1 as [|[v|] l1 IH]; intros H; cbn [app before_uncopyable]; [reflexivity| |].
  - rewrite (H v) by (now left). f_equal. apply IH. intros; apply H; now right.
  - f_equal. apply IH. intros; apply H; now right.
Qed.

Lemma some_of_map (l : list V) : flat_map some_of (map Some l) = l.
Proof. induction l as [|x l IH]; cbn; [reflexivity|]. now rewrite IH. Qed.

Lemma some_of_none n : flat_map some_of (repeat (@None V) n) = [].
Proof. induction n; cbn; auto. Qed.

Lemma before_none n (l : list (option V)) :
  before_uncopyable cat copyable (repeat None n ++ l) = repeat None n ++ before_uncopyable cat copyable l.
Proof. induction n; cbn; [reflexivity|]. now f_equal. Qed.

(** The element blocks made before a copy fails hold the copies of the elements in
    front of the first one that cannot be copied. *)
Lemma copy_bl_aos_made g : forall l k p,
  wfl cat p l ->
  flat_map ev (snd (copy_bl_aos dup copyable g k l)) =
  map dup (flat_map some_of (before_uncopyable cat copyable (flatl l))).
Proof.
  induction l as [|b l IH]; intros k p Hw; [reflexivity|].
  cbn [copy_bl_aos]. cbn [wfl] in Hw. destruct Hw as (_ & [Hz Hok] & Hw).
  specialize (IH (S k) _ Hw). rewrite flatl_cons. unfold flatb, okd in *. destruct (bd b) as [e|].
  - unfold copy_data. destruct Hok as [Hl Ha].
    assert (forall v, In v (ev e) -> cat v = ecat e) as Hcat.
    { intros v Hv. unfold all_cat in Ha. rewrite forallb_forall in Ha. apply Ha in Hv.
      now apply Nat.eqb_eq. }
    destruct (copyable (ecat e)) eqn:Ec.
    + destruct (copy_bl_aos dup copyable g (S k) l) as [r w]. cbn [snd flat_map ev] in *.
      rewrite before_app_ok.
      * rewrite flat_map_app, map_app, IH. f_equal. now rewrite some_of_map.
      * intros v Hv. apply in_map_iff in Hv as (v' & [= ->] & Hv). now rewrite (Hcat v Hv).
    + cbn [snd flat_map]. destruct (ev e) as [|v0 vs]; [simpl in Hl; lia|].
      cbn [map app before_uncopyable]. rewrite (Hcat v0) by (now left). now rewrite Ec.
  - destruct (copy_bl_aos dup copyable g (S k) l) as [r w]. cbn [snd flat_map] in *.
    now rewrite before_none, flat_map_app, some_of_none.
Qed.

Lemma copy_of_aos_lost g s x w :
  good cat s -> copy_of_aos dup copyable g s = (Throw x, w) ->
  flat_map ev w = map dup (flat_map some_of (before_uncopyable cat copyable (flat s))).
Proof.
  intros (Hw & _) E. unfold copy_of_aos in E.
  pose proof (copy_bl_aos_made g (bl s) 0 0 Hw) as H.
  destruct (copy_bl_aos dup copyable g 0 (bl s)) as [[l| |] u]; try discriminate.
  injection E as <- <-. exact H.
Qed.
End Dup.

(** ** Comparison *)

Lemma eq_bl_aos_ok veq : forall l1 l2 p, wfl cat p l1 -> wfl cat p l2 ->
  eq_bl_aos veq l1 l2 =
  nats_eqb (map bp l1) (map bp l2) &&
   (nats_eqb (map bs l1) (map bs l2) && (length l1 =? length l2) && datas_eqb veq (map bd l1) (map bd l2)).
Proof.
  induction l1 as [|b1 l1 IH]; intros [|b2 l2] p H1 H2; cbn [eq_bl_aos map nats_eqb datas_eqb length]; try reflexivity.
  cbn [wfl] in H1, H2. destruct H1 as (P1 & _ & W1). destruct H2 as (P2 & _ & W2).
  rewrite P1, P2, Nat.eqb_refl. cbn [andb].
  destruct (Nat.eqb_spec (bs b1) (bs b2)) as [E|E]; cbn [andb].
  - rewrite E in W1. rewrite (IH l2 _ W1 W2). cbn [Nat.eqb].
    destruct (data_eqb veq (bd b1) (bd b2)); cbn [andb]; [reflexivity|]. now rewrite !andb_false_r.
  - now rewrite andb_false_r.
Qed.

Lemma eq_aos_same veq (a b : st) : good cat a -> good cat b -> eq_aos veq a b = eq_mtv veq a b.
Proof.
  intros (Wa & _) (Wb & _). unfold eq_aos, eq_mtv. rewrite (eq_bl_aos_ok veq _ _ 0 Wa Wb).
  destruct (length (bl a) =? length (bl b)); cbn [andb]; [reflexivity|].
  now rewrite !andb_false_r, ?andb_false_l, ?andb_false_r.
Qed.

(** ** Reachable containers *)
Section Reach.
Variable dup : V -> V.
Variable copyable : nat -> bool.
Hypothesis Hdup : forall v, cat (dup v) = cat v.
Notation reach_aos := (@reach_aos V cat managed dup copyable).

Lemma reach_aos_good A s : reach_aos A s -> good cat s.
Proof using Hdup.
  induction 1 as [g n|g n v H|g n vs s H H0|g s s' w H IH H0|s l o s' H IH H1 H2 H3 H4
    |s d h a b dp s' d' i H IH H0 IH0 H1|s d h a b dp s' d' i H IH H0 IH0 H1
    |s o a b p s' o' H IH H0 IH0 H1|s o a b p s' o' H IH H0 IH0 H1].
  - apply good_init.
  - apply good_fill.
  - eapply good_range; eauto.
  - apply (f_equal fst) in H0. rewrite copy_of_aos_same in H0. eapply (copy_spec cat dup); eauto.
  - apply (shows_eq cat) in H1; auto. subst l.
    pose proof (exec_aos_spec o s IH H2) as He.
    destruct (spec o (flat s)); rewrite H4 in He; [|discriminate].
    cbn [wp] in He. apply He.
  - apply (transfer_ok cat managed) in H1 as (_ & X & _); auto. apply X.
  - apply (transfer_ok cat managed) in H1 as (_ & _ & _ & X); auto. apply X.
  - apply (swap_ok cat managed) in H1 as (_ & X & _); auto. apply X.
  - apply (swap_ok cat managed) in H1 as (_ & _ & X); auto. apply X.
Qed.

Lemma reach_aos_canon (A : list (option V) -> op -> Prop) s :
  (forall l o, A l o -> ~ unmerged cat l o) -> reach_aos A s -> canon s.
Proof using Hdup.
  intros HA.
  induction 1 as [g n|g n v H|g n vs s H H0|g s s' w H IH H0|s l o s' H IH H1 H2 H3 H4
    |s d h a b dp s' d' i H IH H0 IH0 H1|s d h a b dp s' d' i H IH H0 IH0 H1
    |s o a b p s' o' H IH H0 IH0 H1|s o a b p s' o' H IH H0 IH0 H1].
  - apply canon_init.
  - apply good_fill.
  - eapply good_range; eauto.
  - apply (f_equal fst) in H0. rewrite copy_of_aos_same in H0.
    eapply (copy_spec cat dup); eauto. eapply reach_aos_good; eauto.
  - assert (good cat s) as Hg by (eapply reach_aos_good; eauto).
    apply (shows_eq cat) in H1; auto. subst l.
    pose proof (exec_aos_spec o s Hg H2) as He.
    destruct (spec o (flat s)); rewrite H4 in He; [|discriminate].
    cbn [wp] in He. apply He; auto.
  - apply reach_aos_good in H, H0. apply (transfer_ok cat managed) in H1 as (_ & X & _); auto. apply X; auto.
  - apply reach_aos_good in H, H0. apply (transfer_ok cat managed) in H1 as (_ & _ & _ & X); auto. apply X; auto.
  - apply reach_aos_good in H, H0. apply (swap_ok cat managed) in H1 as (_ & X & _); auto. apply X; auto.
  - apply reach_aos_good in H, H0. apply (swap_ok cat managed) in H1 as (_ & _ & X); auto. apply X; auto.
Qed.

Lemma run_aos_refines (A : list (option V) -> op -> Prop) os s l :
  (forall l o, In o os -> A l o) ->
  reach_aos A s -> shows s l -> legal_all cat managed os l ->
  exists s', run_aos cat managed os s = Ok s' /\ reach_aos A s' /\ shows s' (run_spec os l).
Proof using Hdup.
  intros HA. revert s l; induction os as [|o os IH]; intros s l H1 H2; cbn [legal_all run_aos run_spec].
  - intros _. eauto.
  - intros [H3 H4]. pose proof (reach_aos_good _ _ H1) as Hg.
    pose proof (shows_eq cat s l Hg H2) as El. subst l.
    pose proof (exec_aos_spec o s Hg H3) as H.
    destruct (spec o (flat s)) as [l'|].
    + apply wp_ok in H as (s' & E & G' & F' & _). rewrite E. subst l'. apply IH.
      * intros. apply HA. now right.
      * eapply ra_step; eauto. apply HA. now left.
      * now apply (shows_flat cat).
      * exact H4.
    + rewrite H. apply IH; auto. intros. apply HA. now right.
Qed.
End Reach.

(** ** Histories *)

Lemma run_aos_canon os s :
  good cat s -> canon s -> legal_all cat managed os (flat s) -> none_bad (unmerged cat) os (flat s) ->
  exists s', run_aos cat managed os s = Ok s' /\ good cat s' /\ canon s' /\ flat s' = run_spec os (flat s).
Proof.
  revert s; induction os as [|o os IH]; intros s Hg Hc; cbn [legal_all none_bad run_aos run_spec].
  - intros _ _. eauto.
  - intros [H1 H2] [H3 H4]. pose proof (exec_aos_spec o s Hg H1) as He.
    destruct (spec o (flat s)) as [l'|].
    + apply wp_ok in He as (s1 & E & G1 & F1 & C1 & _). rewrite E. subst l'. apply IH; auto.
    + rewrite He. apply IH; auto.
Qed.

Lemma run_canon os s :
  good cat s -> canon s -> legal_all cat managed os (flat s) -> none_bad (unmerged cat) os (flat s) ->
  exists s', run cat managed os s = Ok s' /\ good cat s' /\ canon s' /\ flat s' = run_spec os (flat s).
Proof.
  revert s; induction os as [|o os IH]; intros s Hg Hc; cbn [legal_all none_bad run run_spec].
  - intros _ _. eauto.
  - intros [H1 H2] [H3 H4]. pose proof (exec_spec cat managed o s Hg H1) as He.
    destruct (spec o (flat s)) as [l'|].
    + apply wp_ok in He as (s1 & E & G1 & F1 & C1 & _). rewrite E. subst l'. apply IH; auto.
    + rewrite He. apply IH; auto.
Qed.

Lemma run_aos_owner os s :
  good cat s -> legal_all cat managed os (flat s) -> none_bad (leaky cat managed) os (flat s) ->
  exists s', run_aos cat managed os s = Ok s' /\ good cat s' /\ flat s' = run_spec os (flat s) /\
    forall p, cnt p (freed s') + cnt p (objects cat managed (flat s')) + cnt p (taken_all cat managed os (flat s))
            = cnt p (freed s) + cnt p (objects cat managed (flat s)) + cnt p (given_all cat managed os (flat s)).
Proof.
  revert s; induction os as [|o os IH]; intros s Hg; cbn [legal_all none_bad run_aos run_spec taken_all given_all].
  - intros _ _. exists s. split; [reflexivity|]. split; [exact Hg|]. split; [reflexivity|]. reflexivity.
  - intros [H1 H2] [H3 H4]. pose proof (exec_aos_spec o s Hg H1) as He.
    destruct (spec o (flat s)) as [l'|].
    + apply wp_ok in He as (s1 & E & G1 & F1 & _ & O1 & _). rewrite E. subst l'.
      destruct (IH s1 G1 H2 H4) as (s' & E' & G' & F' & O'). exists s'. do 3 (split; [assumption|]).
      intros p. specialize (O' p). specialize (O1 H3 p). rewrite !cnt_app. lia.
    + rewrite He. apply IH; auto.
Qed.

Lemma run_aos_events os s :
  good cat s -> canon s -> legal_all cat managed os (flat s) ->
  none_bad (exempt_aos cat) os (flat s) ->
  exists s', run_aos cat managed os s = Ok s' /\ good cat s' /\ canon s' /\ events s s'.
Proof.
  revert s; induction os as [|o os IH]; intros s Hg Hc; cbn [legal_all none_bad run_aos].
  - intros _ _. exists s. split; [reflexivity|]. split; [exact Hg|]. split; [exact Hc|]. intros p. lia.
  - intros [H1 H2] [H3 H4]. pose proof (exec_aos_spec o s Hg H1) as He.
    destruct (spec o (flat s)) as [l'|].
    + apply wp_ok in He as (s1 & E & G1 & F1 & C1 & _ & O1). rewrite E. subst l'.
      assert (~ unmerged cat (flat s) o) as Hu by (intros Hu; apply H3; now right).
      destruct (IH s1 G1 (C1 Hc Hu) H2 H4) as (s' & E' & G' & C' & O'). exists s'. do 3 (split; [assumption|]).
      intros p. specialize (O' p). specialize (O1 Hc H3 p). lia.
    + rewrite He. apply IH; auto.
Qed.

End P.
