(** Proofs about the segment_tree model: erasing, iterating, searching, histories. *)
From Coq Require Import List ZArith Lia Bool ZifyBool ZifyNat Permutation.
From Verif Require Import Base FstModel FstProofs4 StModel StProofs.
Import ListNotations.
Open Scope Z_scope.

Local Notation cnt := (count_occ Nat.eq_dec).
Local Notation pcnt := (count_occ path_dec).
Local Notation path := (list bool).
Local Arguments push_chain : simpl never.

Lemma set_nth_same {A} (x : A) : forall l n, (n < length l)%nat -> nth_error (set_nth n x l) n = Some x.
Proof. induction l as [|h t IH]; intros [|n] H; simpl in *; try lia; [reflexivity|]. apply IH. lia. Qed.
Lemma set_nth_other {A} (x : A) : forall l n m, n <> m -> nth_error (set_nth n x l) m = nth_error l m.
Proof. induction l as [|h t IH]; intros [|n] [|m] H; simpl in *; try reflexivity; try lia. apply IH. lia. Qed.
Lemma set_nth_In {A} (x : A) : forall l n y, In y (set_nth n x l) -> y = x \/ In y l.
Proof.
  induction l as [|h t IH]; intros [|n] y H; simpl in *; try tauto.
  - intuition.
  - destruct H as [H|H]; [tauto|]. apply IH in H. tauto.
Qed.

(** ** Iterators over the results *)
Definition nonempty {A} (l : list A) : Prop := l <> [].

Lemma descend_nonempty x n : Forall nonempty (descend_search x n).
Proof.
  assert (forall c acc, Forall nonempty acc -> Forall nonempty (push_chain c acc)) as HP.
  { intros [|c0 c] acc H; [exact H|]. constructor; [discriminate|assumption]. }
  induction n as [k ch|lo hi ch l IHl|lo hi ch l r IHl IHr] using tnode_ind'; cbn [descend_search].
  - apply HP. constructor.
  - destruct (_ || _); [constructor|]. apply HP. destruct l; destruct (x <? _); auto.
  - destruct (_ || _); [constructor|]. apply HP. destruct l; destruct (x <? _); auto.
    + destruct r; auto. destruct (_ <=? x); auto.
    + destruct (_ <=? x); auto.
Qed.

Definition last_it (cs : list (list nat)) : st_iter :=
  match cs with [] => None | _ => Some (length cs - 1, length (last cs []) - 1, true)%nat end.

Lemma last_app_cons {A} (l : list A) x d : last (l ++ [x]) d = x.
Proof. apply last_last. Qed.

Lemma it_end_ok cs : Forall nonempty cs -> it_end cs = Ok (last_it cs).
Proof.
  intros H. destruct cs as [|c cs _] using rev_ind; [reflexivity|].
  unfold it_end, last_it. assert (cs ++ [c] <> []) as N by (now destruct cs).
  destruct (cs ++ [c]) as [|c0 cs0] eqn:E; [congruence|]. rewrite <- E in *. rewrite last_last.
  rewrite app_length. simpl length. replace (length cs + 1 - 1)%nat with (length cs) by lia.
  rewrite nth_error_app2 by lia. rewrite Nat.sub_diag. simpl.
  apply Forall_app in H. destruct H as [_ H]. inversion H as [|? ? Hc]; subst. destruct c; [now destruct Hc|reflexivity].
Qed.

Lemma last_cons2 {A} (l : list A) a d : l <> [] -> last (a :: l) d = last l d.
Proof. destruct l; [congruence|reflexivity]. Qed.
Lemma last_app2 {A} (A1 : list A) l d : l <> [] -> last (A1 ++ l) d = last l d.
Proof.
  intros H. induction A1 as [|a A1 IH]; [reflexivity|]. rewrite <- IH. simpl app. apply last_cons2. destruct A1; [assumption|discriminate].
Qed.

Lemma it_collect_ok cs : Forall nonempty cs -> forall c2 A B c1 fuel,
  cs = A ++ (c1 ++ c2) :: B -> c2 <> [] -> (length (c2 ++ concat B) <= fuel)%nat ->
  it_collect fuel cs (last_it cs) (Some (length A, length c1, false)) = Ok (c2 ++ concat B).
Proof.
  intros HF c2 A B c1 fuel. revert c2 A B c1. induction fuel as [|f IH]; intros c2 A B c1 E N2 Hf.
  { rewrite app_length in Hf. destruct c2; [congruence|simpl in Hf; lia]. }
  assert (last_it cs = Some (length cs - 1, length (last cs []) - 1, true)%nat) as HL by (rewrite E; unfold last_it; now destruct A).
  assert (forall n m, it_eqb (Some (n, m, false)) (last_it cs) = false) as NE.
  { intros. rewrite HL. simpl. now rewrite andb_false_r. }
  cbn [it_collect]. rewrite NE. destruct c2 as [|v c2]; [congruence|].
  assert (nth_error cs (length A) = Some (c1 ++ v :: c2)) as HN by (rewrite E; apply nth_error_app_mid).
  cbn [it_deref it_next]. rewrite HN. cbn [deref bind]. rewrite nth_error_app_mid. cbn [deref bind].
  rewrite app_length. simpl length. destruct c2 as [|w c2]; simpl length.
  - replace (S (length c1) =? length c1 + 1)%nat with true by lia.
    destruct B as [|b B].
    + assert (S (length A) = length cs) as HLn by (rewrite E, app_length; simpl; lia).
      rewrite HLn, Nat.eqb_refl. cbn [bind].
      assert (it_eqb (Some (length A, length c1, true)) (last_it cs) = true) as HE.
      { rewrite HL. simpl. rewrite E at 2. rewrite last_last, app_length. simpl. lia. }
      destruct f; cbn [it_collect]; rewrite HE; reflexivity.
    + assert ((S (length A) =? length cs)%nat = false) as -> by (apply Nat.eqb_neq; rewrite E, app_length; simpl length; lia). cbn [bind].
      assert (nonempty b) as Nb.
      { rewrite E in HF. apply Forall_app in HF. destruct HF as [_ HF]. inversion HF; subst. now inversion H2. }
      pose proof (IH b (A ++ [c1 ++ [v]]) B []) as IH'. rewrite (app_length A) in IH'. simpl length in IH'.
      replace (length A + 1)%nat with (S (length A)) in IH' by lia. rewrite IH'; [reflexivity| |assumption|].
      * rewrite E, <- app_assoc. reflexivity.
      * simpl in Hf. lia.
  - replace (S (length c1) =? length c1 + S (S (length c2)))%nat with false by lia. cbn [bind].
    pose proof (IH (w :: c2) A B (c1 ++ [v])) as IH'. rewrite ?(app_length A), ?(app_length c1 [v]) in IH'. simpl length in IH'.
    replace (length c1 + 1)%nat with (S (length c1)) in IH' by lia. rewrite IH'; [reflexivity| |discriminate|].
    + rewrite E, <- app_assoc. reflexivity.
    + simpl in *. lia.
Qed.

Lemma concat_length_sum (cs : list (list nat)) : length (concat cs) = res_size cs.
Proof. unfold res_size. induction cs as [|c cs IH]; simpl; [reflexivity|]. rewrite app_length, IH. reflexivity. Qed.

Lemma it_collect_all cs : Forall nonempty cs -> forall fuel, (res_size cs <= fuel)%nat ->
  it_collect fuel cs (last_it cs) (it_begin cs) = Ok (concat cs).
Proof.
  intros HF fuel Hf. destruct cs as [|c cs]; [now destruct fuel|].
  apply (it_collect_ok (c :: cs) HF c [] cs []); [reflexivity|now inversion HF|].
  rewrite <- concat_length_sum in Hf. exact Hf.
Qed.

(** Backwards. *)
Lemma it_back_ok cs : Forall nonempty cs -> forall c1 A B c2 fuel,
  cs = A ++ (c1 ++ c2) :: B -> c2 <> [] -> (length (concat A ++ c1) <= fuel)%nat ->
  it_collect_back fuel cs (it_begin cs) (Some (length A, length c1, false)) = Ok (rev (concat A ++ c1)).
Proof.
  intros HF c1 A B c2 fuel. revert c1 A B c2. induction fuel as [|f IH]; intros c1 A B c2 E N2 Hf.
  - rewrite app_length in Hf. destruct c1; [|simpl in Hf; lia]. destruct A as [|a A].
    + rewrite E. simpl. reflexivity.
    + exfalso. rewrite E in HF. simpl in HF. inversion HF as [|? ? Ha _]; subst. destruct a; [now apply Ha|simpl in Hf; lia].
  - assert (it_begin cs = Some (0%nat, 0%nat, false)) as HB by (rewrite E; now destruct A).
    cbn [it_collect_back]. rewrite HB. destruct c1 as [|v c1 _] using rev_ind.
    + destruct A as [|a A _] using rev_ind.
      * reflexivity.
      * replace (it_eqb (Some (length (A ++ [a]), length (@nil nat), false)) (Some (0%nat, 0%nat, false))) with false
          by (rewrite app_length; simpl; lia).
        assert (nonempty a) as Na.
        { rewrite E in HF. apply Forall_app in HF. destruct HF as [HF _]. apply Forall_app in HF. destruct HF as [_ HF]. now inversion HF. }
        cbn [it_prev length]. rewrite app_length. simpl length. replace (length A + 1)%nat with (S (length A)) by lia. cbn [it_prev].
        assert (nth_error cs (length A) = Some a) as HN by (rewrite E, <- app_assoc; apply nth_error_app_mid).
        rewrite HN. cbn [deref bind]. destruct a as [|v a _] using rev_ind; [now destruct Na|].
        destruct (a ++ [v]) as [|z zs] eqn:Ez; [now destruct a|]. rewrite <- Ez in *.
        rewrite app_length. simpl length. replace (length a + 1 - 1)%nat with (length a) by lia. cbn [bind it_deref].
        rewrite HN. cbn [deref bind]. rewrite nth_error_app_mid. cbn [deref bind].
        specialize (IH a A (c2 :: B) [v]). rewrite HB in IH. rewrite IH.
        -- cbn [bind]. rewrite app_nil_r, concat_app. simpl concat. rewrite app_nil_r, app_assoc, (rev_app_distr _ [v]). reflexivity.
        -- rewrite E, <- app_assoc. reflexivity.
        -- discriminate.
        -- rewrite app_nil_r, concat_app in Hf. simpl concat in Hf. rewrite app_nil_r in Hf. rewrite !app_length in *. simpl in Hf. lia.
    + replace (it_eqb (Some (length A, length (c1 ++ [v]), false)) (Some (0%nat, 0%nat, false))) with false
        by (rewrite app_length; simpl; lia).
      rewrite app_length. simpl length. replace (length c1 + 1)%nat with (S (length c1)) by lia. cbn [it_prev bind it_deref].
      assert (nth_error cs (length A) = Some (c1 ++ v :: c2)) as HN.
      { rewrite E, <- app_assoc. apply nth_error_app_mid. }
      rewrite HN. cbn [deref bind]. rewrite nth_error_app_mid. cbn [deref bind].
      specialize (IH c1 A B (v :: c2)). rewrite HB in IH. rewrite IH.
      * cbn [bind]. rewrite app_assoc, (rev_app_distr _ [v]). reflexivity.
      * rewrite E, <- app_assoc. reflexivity.
      * discriminate.
      * rewrite !app_length in *. simpl in Hf. lia.
Qed.

Lemma it_back_all cs : Forall nonempty cs -> forall fuel, (res_size cs <= fuel)%nat ->
  it_collect_back fuel cs (it_begin cs) (last_it cs) = Ok (rev (concat cs)).
Proof.
  intros HF fuel Hf. destruct cs as [|c cs _] using rev_ind; [now destruct fuel|].
  rewrite <- concat_length_sum in Hf. rewrite concat_app in Hf. simpl concat in Hf. rewrite app_nil_r in Hf.
  assert (nonempty c) as Nc by (apply Forall_app in HF; destruct HF as [_ HF]; now inversion HF).
  assert (last_it (cs ++ [c]) = Some (length cs, length c - 1, true)%nat) as HL.
  { unfold last_it. destruct (cs ++ [c]) eqn:E; [now destruct cs|]. rewrite <- E. rewrite last_last, app_length. simpl.
    do 3 f_equal. lia. }
  assert (it_begin (cs ++ [c]) = Some (0%nat, 0%nat, false)) as HB by (now destruct cs).
  rewrite HL. destruct c as [|v c _] using rev_ind; [now destruct Nc|].
  rewrite app_length. simpl length. replace (length c + 1 - 1)%nat with (length c) by lia.
  destruct fuel as [|f]; [rewrite !app_length in Hf; simpl in Hf; lia|].
  cbn [it_collect_back]. rewrite HB. simpl it_eqb. rewrite andb_false_r. cbn [it_prev bind it_deref].
  rewrite nth_error_app_mid. cbn [deref bind]. rewrite nth_error_app_mid. cbn [deref bind].
  pose proof (it_back_ok (cs ++ [c ++ [v]]) HF c cs [] [v] f eq_refl) as H. rewrite HB in H. rewrite H.
  - cbn [bind]. rewrite concat_app. simpl concat. rewrite app_nil_r, app_assoc, (rev_app_distr _ [v]). reflexivity.
  - discriminate.
  - rewrite !app_length in *. simpl in Hf. lia.
Qed.

(** Advancing from the beginning. *)
Lemma it_advance_ok cs : Forall nonempty cs -> forall k c2 A B c1 i,
  cs = A ++ (c1 ++ c2) :: B -> c2 <> [] -> nth_error (c2 ++ concat B) k = Some i ->
  exists it, it_advance cs k (Some (length A, length c1, false)) = Ok it /\ it_deref cs it = Ok i.
Proof.
  intros HF k. induction k as [|k IH]; intros c2 A B c1 i E N2 HK.
  - destruct c2 as [|v c2]; [congruence|]. simpl in HK. injection HK as <-. eexists. split; [reflexivity|].
    cbn [it_deref]. rewrite E, nth_error_app_mid. cbn [deref bind]. now rewrite nth_error_app_mid.
  - destruct c2 as [|v c2]; [congruence|]. simpl in HK.
    assert (nth_error cs (length A) = Some (c1 ++ v :: c2)) as HN by (rewrite E; apply nth_error_app_mid).
    cbn [it_advance it_next]. rewrite HN. cbn [deref bind]. rewrite app_length. simpl length.
    destruct c2 as [|w c2]; simpl length.
    + replace (S (length c1) =? length c1 + 1)%nat with true by lia.
      destruct B as [|b B]; [destruct k; discriminate|].
      assert ((S (length A) =? length cs)%nat = false) as -> by (apply Nat.eqb_neq; rewrite E, app_length; simpl length; lia). cbn [bind].
      assert (nonempty b) as Nb.
      { rewrite E in HF. apply Forall_app in HF. destruct HF as [_ HF]. inversion HF; subst. now inversion H2. }
      destruct (IH b (A ++ [c1 ++ [v]]) B [] i) as (it & H1 & H2); [rewrite E, <- app_assoc; reflexivity|assumption|exact HK|].
      rewrite app_length in H1. simpl length in H1. replace (length A + 1)%nat with (S (length A)) in H1 by lia. eauto.
    + replace (S (length c1) =? length c1 + S (S (length c2)))%nat with false by lia. cbn [bind].
      destruct (IH (w :: c2) A B (c1 ++ [v]) i) as (it & H1 & H2); [rewrite E, <- app_assoc; reflexivity|discriminate|exact HK|].
      rewrite app_length in H1. simpl length in H1. replace (length c1 + 1)%nat with (S (length c1)) in H1 by lia. eauto.
Qed.

Lemma it_advance_all cs k i : Forall nonempty cs -> nth_error (concat cs) k = Some i ->
  exists it, it_advance cs k (it_begin cs) = Ok it /\ it_deref cs it = Ok i.
Proof.
  intros HF HK. destruct cs as [|c cs]; [now destruct k|].
  apply (it_advance_ok (c :: cs) HF k c [] cs [] i eq_refl); [now inversion HF|exact HK].
Qed.

Lemma it_deref_In cs it i : it_deref cs it = Ok i -> In i (concat cs).
Proof.
  destruct it as [[[ci pi] e]|]; [|discriminate]. cbn [it_deref].
  destruct (nth_error cs ci) as [c|] eqn:E1; [|discriminate]. cbn [deref bind].
  destruct (nth_error c pi) as [v|] eqn:E2; [|discriminate]. intros H. injection H as <-.
  apply nth_error_In in E1, E2. apply in_concat. eauto.
Qed.

(** ** Erasing *)
Lemma upd_chain_ok f n : forall p, chain_at p n <> [] ->
  exists n', upd_chain f p n = Ok n' /\ skel n' = skel n /\ chain_at p n' = f (chain_at p n) /\
  forall q, q <> p -> chain_at q n' = chain_at q n.
Proof.
  induction n as [k ch|lo hi ch l IHl|lo hi ch l r IHl IHr] using tnode_ind'; intros [|[] p] H; simpl in *;
    try congruence; try (now destruct H).
  - eexists. split; [reflexivity|]. repeat split. intros [|[] q] Hq; try reflexivity. congruence.
  - eexists. split; [reflexivity|]. repeat split. intros [|[] q] Hq; try reflexivity. congruence.
  - destruct (IHl p H) as (l' & E & S1 & C1 & O1). rewrite E. cbn [bind]. eexists. split; [reflexivity|].
    simpl. rewrite S1, C1. repeat split. intros [|[] q] Hq; try reflexivity. simpl. apply O1. congruence.
  - eexists. split; [reflexivity|]. repeat split. intros [|[] q] Hq; try reflexivity. congruence.
  - destruct (IHr p H) as (l' & E & S1 & C1 & O1). rewrite E. cbn [bind]. eexists. split; [reflexivity|].
    simpl. rewrite S1, C1. repeat split. intros [|[] q] Hq; try reflexivity. simpl. apply O1. congruence.
  - destruct (IHl p H) as (l' & E & S1 & C1 & O1). rewrite E. cbn [bind]. eexists. split; [reflexivity|].
    simpl. rewrite S1, C1. repeat split. intros [|[] q] Hq; try reflexivity. simpl. apply O1. congruence.
Qed.

Lemma remove_from_nodes_ok v : forall ps n, (forall p, cnt (chain_at p n) v = pcnt ps p) ->
  exists n', remove_from_nodes v ps n = Ok n' /\ skel n' = skel n /\
  forall p j, cnt (chain_at p n') j = if Nat.eqb j v then 0%nat else cnt (chain_at p n) j.
Proof.
  induction ps as [|p0 ps IH]; intros n H.
  - exists n. split; [reflexivity|]. split; [reflexivity|]. intros p j. destruct (Nat.eqb_spec j v) as [->|]; [|reflexivity]. apply H.
  - simpl remove_from_nodes.
    destruct (upd_chain_ok (remove_from_chain v) n p0) as (n1 & E & S1 & C1 & O1).
    { intros E. specialize (H p0). rewrite E in H. simpl in H. destruct (path_dec p0 p0); [lia|congruence]. }
    rewrite E. cbn [bind].
    assert (forall p j, cnt (chain_at p n1) j = (cnt (chain_at p n) j - if Nat.eqb j v then if path_dec p0 p then 1 else 0 else 0)%nat) as HC.
    { intros p j. destruct (path_dec p0 p) as [<-|N].
      - rewrite C1, remove_from_chain_cnt. reflexivity.
      - rewrite O1 by congruence. destruct (j =? v)%nat; lia. }
    destruct (IH n1) as (n2 & E2 & S2 & C2).
    { intros p. rewrite HC, H, Nat.eqb_refl. simpl. destruct (path_dec p0 p); lia. }
    exists n2. split; [assumption|]. split; [congruence|]. intros p j. rewrite C2, HC. destruct (j =? v)%nat; lia.
Qed.

Lemma cnt_flat_map (f : path -> list nat) l j : cnt (flat_map f l) j = list_sum (map (fun p => cnt (f p) j) l).
Proof. induction l as [|p l IH]; simpl; [reflexivity|]. now rewrite count_occ_app, IH. Qed.

Lemma descend_cnt_ext x n n' j : skel n = skel n' -> (forall p, cnt (chain_at p n) j = cnt (chain_at p n') j) ->
  cnt (concat (descend_search x n)) j = cnt (concat (descend_search x n')) j.
Proof.
  intros HS HC. rewrite !descend_visit, !cnt_flat_map. rewrite <- (visit_skel x n), HS, visit_skel.
  f_equal. apply map_ext. exact HC.
Qed.

Lemma descend_cnt_zero x n j : (forall p, cnt (chain_at p n) j = 0%nat) -> cnt (concat (descend_search x n)) j = 0%nat.
Proof.
  intros HC. rewrite descend_visit, cnt_flat_map. induction (visit x n) as [|p l IH]; simpl; [reflexivity|]. now rewrite HC.
Qed.

Lemma tag_find_erase v m j : tag_find j (tag_erase v m) = if Nat.eqb j v then None else tag_find j m.
Proof.
  induction m as [|[k ps] m IH]; simpl; [now destruct (j =? v)%nat|].
  destruct (Nat.eqb_spec k v) as [->|E]; simpl.
  - rewrite IH. destruct (Nat.eqb_spec j v) as [E2|E2]; [reflexivity|]. now replace (v =? j)%nat with false by lia.
  - destruct (Nat.eqb_spec k j) as [E2|E2]; [subst; now replace (j =? v)%nat with false by lia|exact IH].
Qed.

Section P.
Context {V : Type}.
Variable veqb : V -> V -> bool.
Variable vdef : V.
Hypothesis veqb_ok : eqb_ok veqb.
Local Notation seg := (Z * Z * V)%type.
Local Notation st_t := (@st_t V).
Local Notation is_deleted := (is_deleted veqb vdef).
Local Notation erase_deleted := (erase_deleted veqb vdef).
Local Notation inv := (@inv V vdef).
Local Notation live := (@live V veqb vdef).
Local Notation store_ok := (@store_ok V vdef).
Local Notation seg_default := (@seg_default V vdef).
Local Notation remove_value_pos := (@remove_value_pos V vdef).

Lemma hits_set (l : list seg) pos x j : (pos < length l)%nat ->
  hits (set_nth pos seg_default l) x j = if Nat.eqb j pos then false else hits l x j.
Proof.
  intros H. unfold hits. destruct (Nat.eqb_spec j pos) as [->|E].
  - rewrite set_nth_same by assumption. apply covb_deleted.
  - now rewrite set_nth_other by lia.
Qed.

Lemma store_ok_set l pos : store_ok l -> store_ok (set_nth pos seg_default l).
Proof. intros H g Hg. apply set_nth_In in Hg. destruct Hg; auto. Qed.

Lemma remove_value_pos_ok t pos : inv t -> (pos < length (store t))%nat ->
  exists t', remove_value_pos t pos = Ok t' /\ inv t' /\ store t' = set_nth pos seg_default (store t) /\ valid t' = valid t.
Proof.
  intros [HS HT] Hp. unfold StModel.remove_value_pos. replace (pos <? length (store t))%nat with true by lia.
  pose proof (store_ok_set _ pos HS) as HS'.
  destruct (valid t) eqn:EV; cbn [negb].
  - destruct (HT EV) as (r & lo & hi & keys & ER & NL & SH & TG & SR & BD).
    assert (forall g s e v, In g (set_nth pos seg_default (store t)) -> g = (s, e, v) -> proper g -> lo <= s /\ e <= hi) as BD'.
    { intros g s e v Hg Eg Hpr. apply set_nth_In in Hg. destruct Hg as [->|Hg]; [simpl in Hpr; lia|]. eapply BD; eauto. }
    destruct (tag_find pos (tagged t)) as [ps|] eqn:ET.
    + rewrite ER. destruct (remove_from_nodes_ok pos ps r) as (r' & E' & SK & CH).
      { intros p. rewrite TG. unfold tags. now rewrite ET. }
      rewrite E'. cbn [bind]. eexists. split; [reflexivity|]. split; [|split; reflexivity].
      split; [exact HS'|]. intros _. cbn [root tagged store].
      exists r', lo, hi, keys. split; [reflexivity|]. split; [destruct r, r'; simpl in *; congruence|].
      split; [eapply shp_skel; [symmetry; exact SK|assumption]|]. split.
      { intros p j. rewrite CH. unfold tags. rewrite tag_find_erase. destruct (j =? pos)%nat; [reflexivity|]. apply TG. }
      split; [|exact BD'].
      intros x j Hx. rewrite hits_set by assumption. destruct (Nat.eqb_spec j pos) as [->|Ej].
      * apply descend_cnt_zero. intros p. now rewrite CH, Nat.eqb_refl.
      * rewrite <- SR by assumption. apply descend_cnt_ext; [assumption|]. intros p. rewrite CH. now replace (j =? pos)%nat with false by lia.
    + eexists. split; [reflexivity|]. split; [|split; reflexivity]. split; [exact HS'|]. intros _. cbn [root tagged store].
      exists r, lo, hi, keys. split; [assumption|]. split; [assumption|]. split; [assumption|]. split; [assumption|].
      split; [|exact BD'].
      intros x j Hx. rewrite hits_set by assumption. destruct (Nat.eqb_spec j pos) as [->|Ej]; [|now apply SR].
      apply descend_cnt_zero. intros p. rewrite TG. unfold tags. now rewrite ET.
  - eexists. split; [reflexivity|]. split; [|split; reflexivity]. split; [exact HS'|]. intros H. discriminate.
Qed.

Lemma live_set l pos g : (pos < length l)%nat -> nth_error l pos = Some g -> is_deleted g = false ->
  exists A B, l = A ++ g :: B /\ erase_deleted l = erase_deleted A ++ g :: erase_deleted B /\
  erase_deleted (set_nth pos seg_default l) = erase_deleted A ++ erase_deleted B.
Proof.
  intros Hp Hn Hd. destruct (nth_error_split l pos Hn) as (A & B & -> & <-). exists A, B.
  rewrite set_nth_app. unfold StModel.erase_deleted. rewrite !filter_app. cbn [filter]. rewrite Hd. cbn [negb].
  assert (StModel.is_deleted veqb vdef seg_default = true) as -> by (now apply deleted_default). cbn [negb]. auto.
Qed.

(** ** Searching *)
Definition cov (x : Z) (g : seg) : bool := let '(s, e, _) := g in covb x s e.

Lemma search_cnt t x : inv t -> valid t = true -> forall j,
  cnt (concat (search_chains t x)) j = if hits (store t) x j then 1%nat else 0%nat.
Proof.
  intros [HS HT] EV j. destruct (HT EV) as (r & lo & hi & keys & ER & NL & SH & TG & SR & BD).
  unfold search_chains. rewrite EV, ER.
  destruct (Z_le_dec lo x) as [H1|H1], (Z_lt_dec x hi) as [H2|H2]; [now apply SR|..];
    (erewrite visit_out by (eauto; lia); simpl; unfold hits;
     destruct (nth_error (store t) j) as [[[s e] v]|] eqn:E; [|reflexivity];
     apply nth_error_In in E; destruct (covb x s e) eqn:EC; [|reflexivity]; exfalso;
     unfold covb in EC; assert (proper (s, e, v)) as HP by (simpl; lia);
     pose proof (BD _ s e v E eq_refl HP); lia).
Qed.

Lemma search_nonempty t x : Forall nonempty (search_chains (V := V) t x).
Proof. unfold search_chains. destruct (valid t); [|constructor]. destruct (root t); [apply descend_nonempty|constructor]. Qed.

Lemma filter_nth (f : seg -> bool) d : forall l,
  map (fun i => nth i l d) (filter (fun i => match nth_error l i with Some g => f g | None => false end) (seq 0 (length l))) = filter f l.
Proof.
  intros l.
  assert (forall B A, l = A ++ B ->
    map (fun i => nth i l d) (filter (fun i => match nth_error l i with Some g => f g | None => false end) (seq (length A) (length B))) = filter f B) as H.
  { induction B as [|b B IH]; intros A E; [reflexivity|]. simpl.
    specialize (IH (A ++ [b])). rewrite app_length in IH. simpl length in IH. replace (length A + 1)%nat with (S (length A)) in IH by lia.
    rewrite <- app_assoc in IH. specialize (IH E).
    rewrite E at 1. rewrite nth_error_app_mid. destruct (f b); simpl; rewrite IH; [|reflexivity].
    rewrite E at 1. now rewrite app_nth2, Nat.sub_diag by lia. }
  apply (H l []). reflexivity.
Qed.

Lemma filter_filter (f g : seg -> bool) l : filter f (filter g l) = filter (fun x => f x && g x) l.
Proof. induction l as [|a l IH]; simpl; [reflexivity|]. destruct (g a), (f a) eqn:E; simpl; rewrite ?E, ?IH; reflexivity. Qed.

Lemma search_perm t x : inv t -> valid t = true ->
  Permutation (map (fun i => nth i (store t) seg_default) (concat (search_chains t x))) (filter (cov x) (live t)).
Proof.
  intros HI EV. pose proof (search_cnt t x HI EV) as HC.
  assert (filter (cov x) (live t) = filter (cov x) (store t)) as ->.
  { unfold StProofs.live, StModel.erase_deleted. rewrite filter_filter. apply filter_ext_in. intros g Hg.
    destruct (StModel.is_deleted veqb vdef g) eqn:ED; simpl; [|apply andb_true_r]. apply deleted_default in ED; [|assumption]. subst g. rewrite andb_false_r. symmetry. apply covb_deleted. }
  rewrite <- (filter_nth (cov x) seg_default (store t)). apply Permutation_map.
  apply (Permutation_count_occ Nat.eq_dec). intros j. rewrite HC.
  assert (forall f l, NoDup l -> cnt (filter f l) j = if f j then cnt l j else 0%nat) as HF.
  { intros f l _. induction l as [|a l IH]; simpl; [now destruct (f j)|].
    destruct (f a) eqn:Ea; simpl; destruct (Nat.eq_dec a j) as [->|N]; rewrite IH; rewrite ?Ea; reflexivity. }
  rewrite HF by apply seq_NoDup. unfold hits. destruct (nth_error (store t) j) as [[[s e] v]|] eqn:E; [|reflexivity].
  cbn [cov]. destruct (covb x s e); [|reflexivity].
  assert (In j (seq 0 (length (store t)))) as Hin.
  { apply in_seq. assert (j < length (store t))%nat by (apply nth_error_Some; congruence). lia. }
  apply (proj1 (count_occ_In Nat.eq_dec _ _)) in Hin. pose proof (proj1 (NoDup_count_occ Nat.eq_dec _) (seq_NoDup (length (store t)) 0) j). lia.
Qed.

Lemma search_in_range t x : inv t -> forall i, In i (concat (search_chains t x)) ->
  (i < length (store t))%nat /\ hits (store t) x i = true.
Proof.
  intros HI i Hi. destruct (valid t) eqn:EV.
  - pose proof (search_cnt t x HI EV i) as HC. apply (proj1 (count_occ_In Nat.eq_dec _ _)) in Hi.
    destruct (hits (store t) x i) eqn:E; [|lia]. split; [|reflexivity].
    unfold hits in E. apply nth_error_Some. destruct (nth_error (store t) i); congruence.
  - unfold search_chains in Hi. rewrite EV in Hi. contradiction.
Qed.

Lemma st_search_ok t x : inv t -> st_search t x = Ok (map (fun i => nth i (store t) seg_default) (concat (search_chains t x))).
Proof.
  intros HI. unfold st_search. pose proof (search_nonempty t x) as HN.
  rewrite it_end_ok by assumption. cbn [bind]. rewrite it_collect_all by (auto; lia). cbn [bind].
  pose proof (search_in_range t x HI) as HR. induction (concat (search_chains t x)) as [|i l IH]; [reflexivity|].
  simpl fold_right. rewrite IH by (intros j Hj; apply HR; now right). cbn [bind].
  destruct (HR i (or_introl eq_refl)) as [HL _]. unfold seg_at. rewrite (nth_error_nth' _ seg_default) by assumption. reflexivity.
Qed.

Lemma st_search_invalid (t : st_t) x : valid t = false -> st_search t x = Ok [].
Proof. intros E. unfold st_search, search_chains. rewrite E. reflexivity. Qed.

(** ** Operations *)
Lemma new_inv : inv st_new.
Proof. split; [intros g []|intros H; discriminate]. Qed.

Lemma insert_ok t s e v : inv t -> s < e -> exists t', st_insert t s e v = Ok t' /\ inv t' /\
  live t' = live t ++ [(s, e, v)] /\ valid t' = false.
Proof.
  intros [HS HT] Hse. unfold st_insert. replace (e <=? s) with false by lia. eexists. split; [reflexivity|].
  split; [split|split].
  - intros g Hg. cbn [store] in Hg. apply in_app_or in Hg. destruct Hg as [Hg|[<-|[]]]; [auto|]. left. exact Hse.
  - intros H. discriminate.
  - unfold StProofs.live, StModel.erase_deleted. cbn [store]. rewrite filter_app. f_equal. cbn [filter].
    rewrite proper_not_deleted by assumption. reflexivity.
  - reflexivity.
Qed.

Lemma insert_rejected t s e v : e <= s -> st_insert t s e v = @Throw st_t E_invalid_arg.
Proof. intros H. unfold st_insert. now replace (e <=? s) with true by lia. Qed.

Lemma hit_live t x i : inv t -> hits (store t) x i = true ->
  exists g, nth_error (store t) i = Some g /\ cov x g = true /\ is_deleted g = false.
Proof.
  intros [HS _] H. unfold hits in H. destruct (nth_error (store t) i) as [[[s e] v]|] eqn:E; [|discriminate].
  exists (s, e, v). split; [reflexivity|]. split; [exact H|]. apply proper_not_deleted; [assumption|]. simpl. unfold covb in H. lia.
Qed.

Lemma erase_ok t x it i : inv t -> it_deref (search_chains t x) it = Ok i ->
  exists t' g, st_erase vdef t it x = Ok t' /\ inv t' /\ nth_error (store t) i = Some g /\ cov x g = true /\
  Permutation (live t) (g :: live t') /\ valid t' = valid t.
Proof.
  intros HI Hd. pose proof (it_deref_In _ _ _ Hd) as Hin. destruct (search_in_range t x HI i Hin) as [HL HH].
  destruct (hit_live t x i HI HH) as (g & HN & HC & HD).
  destruct (remove_value_pos_ok t i HI HL) as (t' & E & HI' & ES & EV).
  exists t', g. split; [unfold st_erase; rewrite Hd; exact E|]. split; [assumption|]. split; [assumption|]. split; [assumption|].
  split; [|assumption]. destruct (live_set (store t) i g HL HN HD) as (A & B & _ & E1 & E2).
  unfold StProofs.live. rewrite ES, E1, E2. symmetry. apply Permutation_middle.
Qed.

Definition keep (pred : Z -> Z -> V -> bool) (g : seg) : bool := let '(s, e, v) := g in negb (pred s e v).

Lemma erase_if_loop_ok pred : forall n t A B c, inv t -> store t = A ++ B -> length B = n ->
  exists t', erase_if_loop veqb vdef pred n (length A) t c = Ok (t', (c + length (filter (fun g => negb (keep pred g)) (erase_deleted B)))%nat) /\
  inv t' /\ live t' = erase_deleted A ++ filter (keep pred) (erase_deleted B) /\ valid t' = valid t.
Proof.
  induction n as [|n IH]; intros t A B c HI E HL.
  - destruct B; [|discriminate]. exists t. simpl. rewrite Nat.add_0_r. split; [reflexivity|]. split; [assumption|].
    split; [|reflexivity]. unfold StProofs.live. rewrite E, !app_nil_r. reflexivity.
  - destruct B as [|g B]; [discriminate|]. injection HL as HL. cbn [erase_if_loop].
    unfold seg_at. rewrite E, nth_error_app_mid. cbn [deref bind]. destruct g as [[s e] v].
    assert (erase_deleted ((s, e, v) :: B) = if is_deleted (s, e, v) then erase_deleted B else (s, e, v) :: erase_deleted B) as EB.
    { unfold StModel.erase_deleted. cbn [filter]. now destruct (StModel.is_deleted veqb vdef (s, e, v)). }
    assert (erase_deleted (A ++ [(s, e, v)]) = erase_deleted A ++ if is_deleted (s, e, v) then [] else [(s, e, v)]) as EA.
    { unfold StModel.erase_deleted. rewrite filter_app. cbn [filter]. now destruct (StModel.is_deleted veqb vdef (s, e, v)). }
    rewrite EB.
    assert (length (A ++ [(s, e, v)]) = S (length A)) as LA by (rewrite app_length; simpl; lia).
    destruct (StModel.is_deleted veqb vdef (s, e, v)) eqn:ED.
    + destruct (IH t (A ++ [(s, e, v)]) B c HI) as (t' & R & HI' & LV & EV); [rewrite <- app_assoc; exact E|exact HL|].
      rewrite LA in R. exists t'. split; [exact R|]. split; [assumption|]. split; [|assumption]. now rewrite LV, EA, app_nil_r.
    + cbn [filter keep]. destruct (pred s e v) eqn:EP; simpl negb; cbn [length].
      * destruct (remove_value_pos_ok t (length A) HI) as (t1 & E1 & HI1 & ES1 & EV1).
        { rewrite E, app_length. simpl. lia. }
        rewrite E1. cbn [bind]. rewrite E, set_nth_app in ES1.
        destruct (IH t1 (A ++ [seg_default]) B (S c) HI1) as (t' & R & HI' & LV & EV); [rewrite <- app_assoc; exact ES1|exact HL|].
        replace (length (A ++ [seg_default])) with (S (length A)) in R by (rewrite app_length; simpl; lia).
        exists t'. split; [rewrite R; do 2 f_equal; lia|]. split; [assumption|]. split; [|congruence].
        rewrite LV. f_equal. unfold StModel.erase_deleted. rewrite filter_app. cbn [filter].
        assert (StModel.is_deleted veqb vdef seg_default = true) as -> by (now apply deleted_default). apply app_nil_r.
      * destruct (IH t (A ++ [(s, e, v)]) B c HI) as (t' & R & HI' & LV & EV); [rewrite <- app_assoc; exact E|exact HL|].
        rewrite LA in R. exists t'. split; [exact R|]. split; [assumption|]. split; [|assumption]. now rewrite LV, EA, <- app_assoc.
Qed.

Lemma erase_if_ok t pred : inv t -> exists t',
  st_erase_if veqb vdef t pred = Ok (t', length (filter (fun g => negb (keep pred g)) (live t))) /\
  inv t' /\ live t' = filter (keep pred) (live t) /\ valid t' = valid t.
Proof. intros HI. exact (erase_if_loop_ok pred (length (store t)) t [] (store t) 0 HI eq_refl eq_refl). Qed.

Lemma clear_inv (t : st_t) : inv (st_clear t) /\ live (st_clear t) = [] /\ valid (st_clear t) = false.
Proof. split; [split; [intros g []|intros H; discriminate]|]. split; reflexivity. Qed.

Lemma build_live t : inv t -> exists t', st_build veqb vdef t = Ok t' /\ inv t' /\ live t' = live t /\
  (valid t' = true <-> live t <> []).
Proof.
  intros HI. destruct (build_ok veqb vdef veqb_ok t HI) as (t' & E & HI' & ES & EV). exists t'.
  split; [assumption|]. split; [assumption|]. split; [|exact EV].
  unfold StProofs.live. rewrite ES. unfold StModel.erase_deleted. rewrite filter_filter. apply filter_ext. intros g. apply andb_diag.
Qed.

Lemma copy_ok t : inv t -> exists c, st_copy veqb vdef t = Ok c /\ inv c /\ live c = live t /\
  valid c = valid t && negb (match live t with [] => true | _ => false end).
Proof.
  intros HI. unfold st_copy. set (c0 := mkSt (store t) [] None [] (valid t)). destruct (valid t) eqn:EV.
  - destruct (build_ok veqb vdef veqb_ok (mkSt (store t) [] None [] false)) as (t' & E & HI' & ES & EV').
    { split; [apply HI|]. intros H; discriminate. }
    assert (st_build veqb vdef c0 = st_build veqb vdef (mkSt (store t) [] None [] false)) as -> by reflexivity.
    exists t'. split; [assumption|]. split; [assumption|]. split.
    + unfold StProofs.live. rewrite ES. unfold StModel.erase_deleted. cbn [store]. rewrite filter_filter. apply filter_ext. intros g. apply andb_diag.
    + cbn [andb]. fold (live t) in EV'. cbn [store] in EV'. change (erase_deleted (store t)) with (live t) in EV'.
      destruct (live t) as [|g l]; simpl.
      * destruct (valid t'); [|reflexivity]. exfalso. now apply (proj1 EV').
      * now apply EV'.
  - exists c0. split; [reflexivity|]. split; [split; [apply HI|intros H; discriminate]|]. split; reflexivity.
Qed.

(** ** Equality *)
Lemma st_eqb_spec (a b : st_t) : st_eqb veqb vdef a b = true <->
  valid a = valid b /\ length (live a) = length (live b) /\ (forall g, In g (live a) -> In g (live b)).
Proof.
  unfold st_eqb. fold (live a). fold (live b). destruct (Bool.eqb (valid a) (valid b)) eqn:EV.
  - apply eqb_prop in EV. rewrite andb_true_iff, forallb_forall, Nat.eqb_eq. split.
    + intros [H1 H2]. split; [assumption|]. split; [assumption|]. intros g Hg. specialize (H1 g Hg).
      apply existsb_exists in H1. destruct H1 as (g' & H3 & H4). apply seg_eqb_ok in H4; [|assumption]. now subst.
    + intros (_ & H2 & H1). split; [|assumption]. intros g Hg. apply existsb_exists. exists g. split; [now apply H1|]. now apply seg_eqb_ok.
  - split; [discriminate|]. intros (E & _). rewrite E, eqb_reflx in EV. discriminate.
Qed.

End P.
