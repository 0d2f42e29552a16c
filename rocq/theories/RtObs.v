(** From the shape of a tree to what searches, size and extent return. *)

From Coq Require Import List ZArith Lia Bool Permutation.
From Verif Require Import Base RtModel RtSpec RtBox RtPerm RtTree RtShape RtSplit RtInsert RtSearch.
Import ListNotations.
Open Scope nat_scope.

Lemma meet_iff q b : length q = length b -> proper q -> proper b ->
  (Forall2 (fun i j => fst i <= snd j /\ fst j <= snd i)%Z q b <-> boxes_meet q b).
Proof.
  intros L Pq Pb. split.
  - intros H. unfold boxes_meet. clear L. induction H as [|i j q b Hij H IH].
    + exists []. split; constructor.
    + inversion Pq; subst. inversion Pb; subst. destruct IH as (p & H6 & H7); auto.
      exists (Z.max (fst i) (fst j) :: p). split; constructor; auto; lia.
  - intros (p & H1 & H2). revert b L Pb H2. induction H1 as [|x i p q Hx H1 IH]; intros b L Pb H2; inversion H2; subst; [constructor|].
    inversion Pq; subst. inversion Pb; subst. constructor; [lia|]. apply IH; auto.
Qed.

Lemma filter_perm {A} (f : A -> bool) l l' : Permutation l l' -> Permutation (filter f l) (filter f l').
Proof.
  induction 1; cbn [filter]; try (destruct (f x)); try (destruct (f y)); auto; [apply perm_swap|].
  etransitivity; eauto.
Qed.

Section O.
Context {V : Type}.
Implicit Types (s : st V) (n : nd V) (l : list (box * V)).

Lemma selects_perm (P : box * V -> Prop) r l l' : Permutation l l' -> selects P r l -> selects P r l'.
Proof.
  intros Hp (f & Hf & Hr). exists f. split; [|rewrite Hr; now apply filter_perm].
  intros x Hx. apply Hf. eapply Permutation_in; [symmetry; exact Hp|exact Hx].
Qed.

Lemma overlap_selects q s : enclosing (root s) -> proper q ->
  Forall (fun e => proper (fst e) /\ length (fst e) = length q) (contents (root s)) ->
  selects (fun e => boxes_meet q (fst e)) (found (search_overlap q s)) (contents (root s)).
Proof.
  intros He Pq Hc. unfold search_overlap.
  rewrite (search_descend_exact _ _ (fun b => proper b /\ length b = length q)); [|exact He| |].
  - rewrite <- contents_entries. exists (fun e => intersects q (fst e)). split; [|reflexivity].
    intros e Ie. rewrite Forall_forall in Hc. destruct (Hc e Ie) as [H1 H2].
    rewrite intersects_spec by auto. apply meet_iff; auto.
  - rewrite <- contents_entries. exact Hc.
  - intros b B [H1 H2] H3 H4. eapply intersects_mono; eauto.
Qed.

Lemma match_selects q s : enclosing (root s) ->
  selects (fun e => fst e = q) (found (search_match q s)) (contents (root s)).
Proof.
  intros He. unfold search_match.
  rewrite (search_descend_exact _ _ (fun b => True)); [|exact He| |].
  - rewrite <- contents_entries. exists (fun e => box_eqb (fst e) q). split; [|reflexivity].
    intros e _. apply box_eqb_eq.
  - apply Forall_forall. auto.
  - intros b B _ H1 H2. apply box_eqb_eq in H1. subst. apply contains_inside; [|exact H2].
    symmetry. now apply inside_length.
Qed.

Lemma forall2_flip (A B : Type) (R : A -> B -> Prop) (l : list A) (l' : list B) : Forall2 R l l' <-> Forall2 (fun y x => R x y) l' l.
Proof. split; induction 1; constructor; auto. Qed.

Lemma pt_overlap_selects q s : enclosing (root s) ->
  Forall (fun e => length (fst e) = length q) (contents (root s)) ->
  selects (fun e => point_in q (fst e)) (found (search_pt_overlap q s)) (contents (root s)).
Proof.
  intros He Hc. unfold search_pt_overlap.
  rewrite (search_descend_exact _ _ (fun b => length b = length q)); [|exact He| |].
  - rewrite <- contents_entries. exists (fun e => contains_pt (fst e) q). split; [|reflexivity].
    intros e Ie. rewrite Forall_forall in Hc. rewrite contains_pt_spec by auto. apply forall2_flip.
  - rewrite <- contents_entries. exact Hc.
  - intros b B H1 H2 H3. eapply contains_pt_mono; eauto.
Qed.

Lemma pt_match_selects q s : enclosing (root s) ->
  selects (fun e => fst e = point_box q) (found (search_pt_match q s)) (contents (root s)).
Proof.
  intros He. unfold search_pt_match.
  rewrite (search_descend_exact _ _ (fun b => True)); [|exact He| |].
  - rewrite <- contents_entries. exists (fun e => box_is_point (fst e) q). split; [|reflexivity].
    intros e _. apply box_is_point_spec.
  - apply Forall_forall. auto.
  - intros b B _ H1 H2. apply box_is_point_spec in H1. eapply contains_pt_mono; [exact H2| |].
    + rewrite H1. apply map_length.
    + rewrite H1. apply point_contains.
Qed.

Variable C : cfg.

(** A sound tree that holds the entries [l] *)
Definition holds (tg : bool) (rl kl H : nat) (s : st V) (l : list (box * V)) : Prop :=
  sinv C tg rl kl H s /\ Permutation (contents (root s)) l /\ Forall (fun e => length (fst e) = dims C) l.

Lemma entries_dims tg kl h : forall n lo hi, shape C tg kl h lo hi n -> Forall (fun e => length (fst e) = dims C) (entries n).
Proof.
  induction h as [|h IH]; intros [a p b v|a p lf b c ok ks] lo hi H; cbn [shape] in H; try contradiction; cbn [entries].
  - constructor; auto.
  - destruct H as (_ & _ & _ & _ & K). rewrite Forall_forall in *. intros e He. apply in_flat_map in He.
    destruct He as (k & Ik & Hk). specialize (IH k _ _ (K k Ik)). rewrite Forall_forall in IH. auto.
Qed.

Lemma holds_size tg rl kl H s l : holds tg rl kl H s l -> size s = length l.
Proof. intros (_ & P & _). unfold size. rewrite nvals_entries, <- contents_entries. now apply Permutation_length. Qed.

Lemma holds_empty tg rl kl H s l : 1 <= rl -> 1 <= kl -> holds tg rl kl H s l -> empty s = match l with [] => true | _ => false end.
Proof.
  intros R Kl (Si & P & _). destruct Si as [[Hh Hs] _]. unfold empty. rewrite contents_entries in P.
  destruct H as [|h]; [lia|]. destruct (root s) as [|a p lf b c ok ks] eqn:E; [contradiction|].
  cbn [shape] in Hs. destruct Hs as (_ & -> & Hc & _ & K). cbn [ncnt].
  destruct ks as [|k ks].
  - cbn [length Nat.eqb]. cbn [entries flat_map] in P. apply Permutation_nil in P. now subst l.
  - cbn [length Nat.eqb]. destruct l as [|e l]; [|reflexivity]. exfalso.
    apply Permutation_sym, Permutation_nil in P. cbn [entries flat_map] in P. apply app_eq_nil in P. destruct P as [P _].
    apply Forall_cons_iff in K. destruct K as [K _]. revert P. eapply entries_nonempty; [exact Kl|exact K|].
    right. exact Kl.
Qed.

Lemma holds_enclosing tg rl kl H s l : holds tg rl kl H s l -> enclosing (root s).
Proof. intros (Si & _). destruct Si as [[_ Hs] _]. eapply shape_enclosing; eauto. Qed.

Lemma holds_overlap tg rl kl H s l q : holds tg rl kl H s l -> length q = dims C -> box_ok q -> Forall (fun e => box_ok (fst e)) l ->
  selects (fun e => boxes_meet q (fst e)) (found (search_overlap q s)) l.
Proof.
  intros Hh Lq Pq Pl. pose proof Hh as (_ & P & D). eapply selects_perm; [exact P|].
  apply overlap_selects; [eapply holds_enclosing; eauto|exact Pq|].
  eapply Permutation_Forall; [symmetry; exact P|]. rewrite Forall_forall in *. intros e He. rewrite Lq. split; [exact (Pl e He)|auto].
Qed.

Lemma holds_match tg rl kl H s l q : holds tg rl kl H s l -> selects (fun e => fst e = q) (found (search_match q s)) l.
Proof.
  intros Hh. pose proof Hh as (_ & P & _). eapply selects_perm; [exact P|].
  apply match_selects. eapply holds_enclosing; eauto.
Qed.

Lemma holds_pt_overlap tg rl kl H s l q : holds tg rl kl H s l -> length q = dims C ->
  selects (fun e => point_in q (fst e)) (found (search_pt_overlap q s)) l.
Proof.
  intros Hh Lq. pose proof Hh as (_ & P & D). eapply selects_perm; [exact P|].
  apply pt_overlap_selects; [eapply holds_enclosing; eauto|].
  eapply Permutation_Forall; [symmetry; exact P|]. rewrite Lq. exact D.
Qed.

Lemma holds_pt_match tg rl kl H s l q : holds tg rl kl H s l ->
  selects (fun e => fst e = point_box q) (found (search_pt_match q s)) l.
Proof.
  intros Hh. pose proof Hh as (_ & P & _). eapply selects_perm; [exact P|].
  apply pt_match_selects. eapply holds_enclosing; eauto.
Qed.

Lemma holds_depths tg rl kl H s l : holds tg rl kl H s l -> Forall (fun d => d = H) (value_depths 0 (root s)).
Proof. intros (Si & _). destruct Si as [[_ Hs] _]. exact (shape_depths C tg kl H _ _ _ 0 Hs). Qed.

Lemma holds_fills tg rl kl H s l : holds tg rl kl H s l ->
  Forall (fun x => kl <= x <= mx C) (fills_below (root s)) /\ length (nkids (root s)) <= mx C.
Proof.
  intros (Si & _). destruct Si as [[Hh Hs] _]. split; [eapply shape_fills; eauto|].
  destruct H as [|h]; [lia|]. destruct (root s); [contradiction|]. cbn [shape] in Hs. cbn [nkids]. lia.
Qed.

Lemma holds_extent rl kl H s l : 1 <= kl -> holds true rl kl H s l -> l <> [] -> smallest_around (extent s) (map fst l).
Proof.
  intros Kl Hh N X. pose proof (holds_enclosing _ _ _ _ _ _ Hh) as He. destruct Hh as (Si & P & _).
  destruct Si as [[_ Hs] _]. unfold extent. rewrite contents_entries in P. split.
  - intros Hx. apply Forall_map. eapply Permutation_Forall; [exact P|]. apply enclosing_in in He.
    eapply Forall_impl; [|exact He]. intros e Hi. eapply inside_trans; [exact Hi|exact Hx].
  - intros Hx. apply Forall_map in Hx. eapply tight_least; [exact Kl|reflexivity|exact Hs| |].
    + intros E. rewrite E in P. apply Permutation_nil in P. auto.
    + eapply Permutation_Forall; [symmetry; exact P|]. exact Hx.
Qed.

Lemma holds_extent_in tg rl kl H s l : holds tg rl kl H s l -> Forall (fun e => box_in (fst e) (extent s)) l.
Proof.
  intros Hh. pose proof (holds_enclosing _ _ _ _ _ _ Hh) as He. destruct Hh as (Si & P & _).
  rewrite contents_entries in P. eapply Permutation_Forall; [exact P|]. exact (enclosing_in _ He).
Qed.

Lemma holds_integrity rl kl H s l emin : 1 <= kl -> mn C <= kl -> holds true rl kl H s l -> (emin = false \/ mn C <= rl) ->
  check_integrity C emin s = true.
Proof.
  intros K1 Kl (Si & _) Hm. destruct Si as [Hs [Lp Lk _ _]]. destruct s as [r x]. cbn [root] in *.
  eapply check_ok; eauto.
Qed.

(** ** Histories of insertions *)
Hypothesis T : traits_ok C.

Lemma built_holds s l : built C s l -> exists H, holds true 2 (mn C) H s l /\ nok (root s) = false.
Proof.
  induction 1 as [|s l b v s' B IH Hb E|s l B IH].
  - destruct (@init_sinv V C true 2 ltac:(lia) ltac:(lia) (mn C) (t_min C T) (le_n _) (init C) eq_refl) as (Si & N & Ee & _).
    exists 1. split; [|exact N]. split; [exact Si|]. rewrite contents_entries, Ee. split; [reflexivity|constructor].
  - destruct IH as (H & (Si & P & D) & N).
    destruct (insert_ok C T true 2 ltac:(lia) ltac:(lia) (mn C) (t_min C T) (le_n _) s b v H Si Hb) as [[R _]|(s1 & H1 & R & G & P1)].
    + rewrite N. discriminate.
    + congruence.
    + assert (s1 = s') by congruence. subst s1. destruct G as (G1 & _ & _ & G4 & _).
      exists H1. split; [|auto]. split; [exact G1|]. rewrite contents_entries in *. rewrite P1, P.
      split; [reflexivity|]. constructor; auto.
  - destruct IH as (H & (Si & P & D) & N). exists 1.
    destruct Si as [_ [_ _ Nd Bd]]. split; [|reflexivity].
    split; [|split; [reflexivity|constructor]]. unfold clear.
    constructor; cbn [root nxt create_dir].
    + split; [lia|]. cbn [shape map length rootlo Nat.eqb]. split; [reflexivity|]. split; [reflexivity|].
      split; [cbn [length]; lia|]. split; [|constructor]. split; [apply repeat_length|reflexivity].
    + constructor; cbn [npar addrs flat_map]; [reflexivity|exact I|constructor; [intros []|constructor]|].
      constructor; [|constructor]. rewrite Forall_forall in Bd. apply Bd. destruct (root s); now left.
Qed.

Lemma built_insert_outcome s l b v : built C s l -> length b = dims C ->
  (exists s', insert C b v s = Ok s') \/ (insert C b v s = Throw E_general /\
     (2 <= mn C -> 2 ^ S (S (maxdepth C)) <= length l)).
Proof.
  intros B Hb. destruct (built_holds _ _ B) as (H & (Si & P & D) & N).
  destruct (insert_ok C T true 2 ltac:(lia) ltac:(lia) (mn C) (t_min C T) (le_n _) s b v H Si Hb) as [[R Bd]|(s1 & H1 & R & G & P1)].
  - rewrite N. discriminate.
  - right. split; [exact R|]. intros Hm. destruct (le_lt_dec (2 ^ S (S (maxdepth C))) (length l)) as [|Hlt]; [auto|].
    exfalso. apply Bd. apply bounded_pow; auto using (le_n (mn C)). 1: exact (t_min C T). rewrite contents_entries in P. now rewrite (Permutation_length P).
  - left. eauto.
Qed.

End O.
