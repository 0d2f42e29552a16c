(** Proofs about the segment_tree model. *)
From Coq Require Import List ZArith Lia Bool ZifyBool ZifyNat Permutation Sorted.
From Verif Require Import Base FstModel FstProofs4 StModel.
Import ListNotations.
Open Scope Z_scope.

Local Notation cnt := (count_occ Nat.eq_dec).
Local Notation path := (list bool).
Lemma path_dec : forall a b : path, {a = b} + {a <> b}.
Proof. exact (list_eq_dec bool_dec). Qed.
Local Notation pcnt := (count_occ path_dec).
Local Arguments push_chain : simpl never.

(** ** Keys *)

Lemma ins_key_perm k l : Permutation (ins_key k l) (k :: l).
Proof.
  induction l as [|h t IH]; simpl; [reflexivity|]. destruct (k <=? h); [reflexivity|].
  rewrite IH. apply perm_swap.
Qed.

Lemma sort_keys_perm l : Permutation (sort_keys l) l.
Proof. induction l as [|h t IH]; simpl; [reflexivity|]. rewrite ins_key_perm. now constructor. Qed.

Fixpoint nondec (l : list Z) : Prop :=
  match l with [] => True | a :: t => (forall b, In b t -> a <= b) /\ nondec t end.
Fixpoint incr (l : list Z) : Prop :=
  match l with [] => True | a :: t => (forall b, In b t -> a < b) /\ incr t end.

Lemma ins_key_nondec k l : nondec l -> nondec (ins_key k l).
Proof.
  induction l as [|h t IH]; simpl; intros H; [intuition; contradiction|].
  destruct (k <=? h) eqn:E.
  - split; [|exact H]. intros b [<-|Hb]; [lia|]. destruct H as [H _]. specialize (H b Hb). lia.
  - simpl. destruct H as [H1 H2]. split; [|auto]. intros b Hb.
    apply (Permutation_in _ (ins_key_perm k t)) in Hb. destruct Hb as [<-|Hb]; [lia|auto].
Qed.

Lemma sort_keys_nondec l : nondec (sort_keys l).
Proof. induction l; simpl; [exact I|]. now apply ins_key_nondec. Qed.

Lemma uniq_In l x : In x (uniq l) <-> In x l.
Proof.
  induction l as [|a t IH]; [reflexivity|]. destruct t as [|b t]; [reflexivity|].
  change (uniq (a :: b :: t)) with (if a =? b then uniq (b :: t) else a :: uniq (b :: t)).
  destruct (a =? b) eqn:E; simpl in *; rewrite IH; [|tauto]. assert (a = b) by lia. subst. tauto.
Qed.

Lemma uniq_incr l : nondec l -> incr (uniq l).
Proof.
  induction l as [|a t IH]; [exact (fun _ => I)|]. destruct t as [|b t]; [simpl; tauto|].
  intros [H1 H2]. change (uniq (a :: b :: t)) with (if a =? b then uniq (b :: t) else a :: uniq (b :: t)).
  destruct (a =? b) eqn:E; [now apply IH|].
  split; [|now apply IH]. intros x Hx. apply (proj1 (uniq_In (b :: t) x)) in Hx.
  destruct H2 as [H2 _]. destruct Hx as [<-|Hx].
  - specialize (H1 b (or_introl eq_refl)). lia.
  - specialize (H1 b (or_introl eq_refl)). specialize (H2 x Hx). lia.
Qed.

Section P.
Context {V : Type}.
Variable veqb : V -> V -> bool.
Variable vdef : V.
Hypothesis veqb_ok : eqb_ok veqb.
Local Notation seg := (Z * Z * V)%type.
Local Notation st_t := (@st_t V).
Local Notation is_deleted := (is_deleted veqb vdef).
Local Notation erase_deleted := (erase_deleted veqb vdef).

Lemma seg_eqb_ok (a b : seg) : seg_eqb veqb a b = true <-> a = b.
Proof.
  destruct a as [[s1 e1] v1], b as [[s2 e2] v2]. simpl. rewrite !andb_true_iff, !Z.eqb_eq. split.
  - intros [[-> ->] H]. apply veqb_ok in H. congruence.
  - intros H. injection H as -> -> ->. repeat split. now apply veqb_ok.
Qed.

(** A segment that insert accepts. *)
Definition proper (g : seg) : Prop := let '(s, e, _) := g in s < e.

Lemma proper_not_deleted g : proper g -> is_deleted g = false.
Proof.
  intros H. destruct (StModel.is_deleted veqb vdef g) eqn:E; [|reflexivity]. apply seg_eqb_ok in E. subst. simpl in H. lia.
Qed.

Lemma deleted_default g : is_deleted g = true <-> g = seg_default vdef.
Proof. apply seg_eqb_ok. Qed.

(** ** Shape of the tree *)
Definition leafb (n : tnode) : bool := match n with TLeaf _ _ => true | _ => false end.

Inductive shp (P : Z -> Z -> Prop) : Z -> Z -> tnode -> Prop :=
| shp_leaf k hi ch : k <= hi -> P k hi -> shp P k hi (TLeaf k ch)
| shp_one lo hi ch l : shp P lo hi l -> shp P lo hi (TNode lo hi ch l None)
| shp_two lo m hi ch l r : shp P lo m l -> shp P m hi r -> leafb l = leafb r ->
    shp P lo hi (TNode lo hi ch l (Some r)).

Lemma shp_le P lo hi n : shp P lo hi n -> lo <= hi.
Proof. induction 1; lia. Qed.
Lemma shp_low P lo hi n : shp P lo hi n -> t_low n = lo.
Proof. induction 1; reflexivity. Qed.
Lemma shp_high P lo hi n : shp P lo hi n -> leafb n = false -> t_high n = hi.
Proof. induction 1; try reflexivity. discriminate. Qed.

(** A run of nodes of the same level covering [lo,hi). *)
Fixpoint shps (P : Z -> Z -> Prop) (lo hi : Z) (l : list tnode) : Prop :=
  match l with
  | [] => lo = hi
  | n :: t => exists m, shp P lo m n /\ leafb n = false /\ shps P m hi t
  end.

Definition gap (keys : list Z) (k hi : Z) : Prop := forall b, In b keys -> b <= k \/ hi <= b.

Lemma st_level0_shps keys : incr keys -> forall n A B, (length B <= n)%nat -> keys = A ++ B -> B <> [] ->
  shps (gap keys) (hd 0 B) (last B 0) (st_level0 B).
Proof.
  intros HI. induction n as [|n IH]; intros A B Hn E NB; [destruct B; [congruence|simpl in Hn; lia]|].
  assert (forall A k1 k2 B, keys = A ++ k1 :: k2 :: B -> k1 < k2 /\ gap keys k1 k2) as G.
  { clear -HI. intros A k1 k2 B E.
    assert (forall A l, incr (A ++ l) -> incr l /\ forall a b, In a A -> In b l -> a < b) as HA.
    { clear. induction A as [|a A IH]; intros l H; [simpl in *; split; [assumption|contradiction]|].
      destruct H as [H1 H2]. apply IH in H2. split; [tauto|]. intros x b [<-|Hx] Hb; [|now apply H2].
      apply H1. apply in_or_app. now right. }
    rewrite E in HI. apply HA in HI. destruct HI as [[H1 [H2 H3]] H4]. split; [apply H1; now left|].
    intros b Hb. rewrite E in Hb. apply in_app_or in Hb. destruct Hb as [Hb|[<-|[<-|Hb]]]; [|lia..|].
    - left. specialize (H4 b k1 Hb (or_introl eq_refl)). lia.
    - right. specialize (H2 b Hb). lia. }
  assert (forall k A B, keys = A ++ k :: B -> gap keys k k) as G0 by (intros k A' B' _ b _; lia).
  destruct B as [|k1 [|k2 B]]; [congruence| |].
  - simpl. exists k1. repeat split. constructor. constructor; [lia|]. eapply G0; eauto.
  - destruct (G A k1 k2 B E) as [H12 G12]. destruct B as [|k3 B].
    + simpl. exists k2. repeat split. eapply shp_two with (m := k2); [| |reflexivity].
      * constructor; [lia|exact G12].
      * constructor; [lia|]. apply (G0 k2 (A ++ [k1]) []). now rewrite <- app_assoc.
    + change (st_level0 (k1 :: k2 :: k3 :: B)) with
        (TNode k1 k3 [] (TLeaf k1 []) (Some (TLeaf k2 [])) :: st_level0 (k3 :: B)).
      destruct (G (A ++ [k1]) k2 k3 B) as [H23 G23]; [now rewrite <- app_assoc|].
      exists k3. split; [|split; [reflexivity|]].
      * eapply shp_two with (m := k2); [| |reflexivity]; constructor; try lia; assumption.
      * change (last (k1 :: k2 :: k3 :: B) 0) with (last (k3 :: B) 0).
        apply (IH (A ++ [k1; k2]) (k3 :: B)); [simpl in Hn; simpl; lia|now rewrite <- app_assoc|congruence].
Qed.

Lemma st_level_shps P : forall n l lo hi, (length l <= n)%nat -> shps P lo hi l -> shps P lo hi (st_level l).
Proof.
  induction n as [|n IH]; intros l lo hi Hn H; [destruct l; [assumption|simpl in Hn; lia]|].
  destruct l as [|n1 [|n2 l]]; [assumption| |].
  - destruct H as (m & H1 & H2 & H3). simpl in H3. subst m. simpl.
    rewrite (shp_low _ _ _ _ H1), (shp_high _ _ _ _ H1 H2). exists hi. repeat split. now constructor.
  - destruct H as (m & H1 & H2 & m2 & H3 & H4 & H5). cbn [st_level shps].
    rewrite (shp_low _ _ _ _ H1), (shp_high _ _ _ _ H3 H4). exists m2. repeat split.
    + eapply shp_two; eauto; congruence.
    + apply IH; [simpl in Hn; lia|assumption].
Qed.

Lemma st_level_length : forall n (l : list tnode), (length l <= n)%nat -> length (st_level l) = Nat.div2 (S (length l)).
Proof.
  induction n as [|n IH]; intros l Hn; [destruct l; [reflexivity|simpl in Hn; lia]|].
  destruct l as [|n1 [|n2 l]]; try reflexivity. cbn [st_level length]. rewrite IH by (simpl in Hn; lia). reflexivity.
Qed.
Lemma st_level0_length : forall n (l : list Z), (length l <= n)%nat -> length (st_level0 l) = Nat.div2 (S (length l)).
Proof.
  induction n as [|n IH]; intros l Hn; [destruct l; [reflexivity|simpl in Hn; lia]|].
  destruct l as [|n1 [|n2 l]]; try reflexivity. cbn [st_level0 length]. rewrite IH by (simpl in Hn; lia). reflexivity.
Qed.

Lemma st_non_leaf_ok P lo hi : forall fuel l pool,
  (length l <= S fuel)%nat -> l <> [] -> shps P lo hi l -> (used fuel (length l) <= pool)%nat ->
  exists r, st_non_leaf fuel pool l = Ok (Some r) /\ shp P lo hi r /\ leafb r = false.
Proof.
  induction fuel as [|f IH]; intros l pool Hl NL HC HP.
  - destruct l as [|n1 [|n2 l]]; [congruence| |simpl in Hl; lia].
    exists n1. destruct HC as (m & H1 & H2 & H3). simpl in H3. subst. auto.
  - destruct l as [|n1 [|n2 l]]; [congruence| |].
    + exists n1. destruct HC as (m & H1 & H2 & H3). simpl in H3. subst. auto.
    + remember (n1 :: n2 :: l) as l0 eqn:El0.
      assert (st_non_leaf (S f) pool l0 = let* pool' := st_take pool (st_level l0) in st_non_leaf f pool' (st_level l0)) as ->
        by (rewrite El0; reflexivity).
      pose proof (st_level_length (length l0) l0 (le_n _)) as HLen.
      pose proof (div2_bounds (length l0)) as HB.
      assert (2 <= length l0)%nat as H2 by (rewrite El0; simpl; lia).
      cbn [used] in HP. replace (length l0 <=? 1)%nat with false in HP by lia.
      unfold st_take. rewrite HLen. replace (Nat.div2 (S (length l0)) <=? pool)%nat with true by lia. cbn [bind].
      apply IH.
      * lia.
      * intros E. apply (f_equal (@length _)) in E. rewrite HLen in E. change (length (@nil tnode)) with O in E. lia.
      * eapply st_level_shps; eauto.
      * rewrite HLen. lia.
Qed.

Lemma st_builder_ok keys : incr keys -> keys <> [] -> forall pool,
  count_needed_nonleaf_nodes (S (length keys)) (length keys) 0 = Ok pool -> (2 <= length keys)%nat ->
  exists r, st_builder (length keys) pool keys = Ok (Some r) /\ shp (gap keys) (hd 0 keys) (last keys 0) r /\ leafb r = false.
Proof.
  intros HI NE pool HC H2.
  assert (pool = used (length keys) (length keys)) as ->.
  { rewrite count_needed_used in HC by lia. rewrite (used_fuel (length keys) (S (length keys))) by lia.
    set (u := used _ _) in *. injection HC. lia. }
  pose proof (st_level0_shps keys HI (length keys) [] keys (le_n _) eq_refl NE) as HS.
  pose proof (st_level0_length (length keys) keys (le_n _)) as HLen.
  pose proof (div2_bounds (length keys)) as HB.
  unfold st_builder, st_take. rewrite HLen.
  destruct (length keys) as [|n] eqn:En; [lia|].
  assert (Nat.div2 (S (S n)) + used n (Nat.div2 (S (S n))) = used (S n) (S n))%nat as HU.
  { cbn [used]. now replace (S n <=? 1)%nat with false by lia. }
  replace (Nat.div2 (S (S n)) <=? used (S n) (S n))%nat with true by lia. cbn [bind].
  apply st_non_leaf_ok.
  - rewrite HLen. lia.
  - intros E. apply (f_equal (@length _)) in E. rewrite HLen in E. change (length (@nil tnode)) with O in E. lia.
  - assumption.
  - rewrite HLen. rewrite (used_fuel (S n) n) by lia. lia.
Qed.

(** ** Chains *)
Fixpoint chain_at (p : path) (n : tnode) : list nat :=
  match p, n with
  | [], TLeaf _ ch => ch
  | [], TNode _ _ ch _ _ => ch
  | false :: p, TNode _ _ _ l _ => chain_at p l
  | true :: p, TNode _ _ _ _ (Some r) => chain_at p r
  | _, _ => []
  end.

(** Nodes visited by the search for [x]. *)
Fixpoint visit (x : Z) (n : tnode) : list path :=
  match n with
  | TLeaf _ _ => [[]]
  | TNode lo hi _ l r =>
      if (x <? lo) || (hi <=? x) then []
      else
        [] :: (match l with
           | TLeaf kl _ =>
               if x <? kl then []
               else match r with
                    | Some (TLeaf kr cr) => if kr <=? x then [[true]] else map (cons false) (visit x l)
                    | _ => map (cons false) (visit x l)
                    end
           | TNode ll lh _ _ _ =>
               if x <? ll then []
               else match r with
                    | Some r => if lh <=? x then map (cons true) (visit x r) else map (cons false) (visit x l)
                    | None => map (cons false) (visit x l)
                    end
           end)
  end.

Lemma concat_push ch acc : concat (push_chain ch acc) = ch ++ concat acc.
Proof. destruct ch; reflexivity. Qed.

Lemma flat_map_cons_map (b : bool) ps (f : path -> list nat) (g : path -> list nat) :
  (forall p, f (b :: p) = g p) -> flat_map f (map (cons b) ps) = flat_map g ps.
Proof. intros H. induction ps as [|p ps IH]; simpl; [reflexivity|]. now rewrite H, IH. Qed.

Lemma tnode_ind' (Q : tnode -> Prop) :
  (forall k ch, Q (TLeaf k ch)) ->
  (forall lo hi ch l, Q l -> Q (TNode lo hi ch l None)) ->
  (forall lo hi ch l r, Q l -> Q r -> Q (TNode lo hi ch l (Some r))) -> forall n, Q n.
Proof.
  intros H1 H2 H3. fix IH 1. intros [k ch|lo hi ch l [r|]]; [apply H1|apply H3; apply IH|apply H2; apply IH].
Qed.

Lemma descend_visit x n : concat (descend_search x n) = flat_map (fun p => chain_at p n) (visit x n).
Proof.
  induction n as [k ch|lo hi ch l IHl|lo hi ch l r IHl IHr] using tnode_ind'.
  - simpl. now rewrite concat_push.
  - cbn [descend_search visit]. destruct ((x <? lo) || (hi <=? x)); [reflexivity|]. rewrite concat_push.
    cbn [flat_map]. simpl chain_at at 1. f_equal.
    destruct l as [kl cl|ll lh cl l1 l2].
    + destruct (x <? kl); [reflexivity|]. rewrite IHl. symmetry. now apply flat_map_cons_map.
    + destruct (x <? ll); [reflexivity|]. rewrite IHl. symmetry. now apply flat_map_cons_map.
  - cbn [descend_search visit]. destruct ((x <? lo) || (hi <=? x)); [reflexivity|]. rewrite concat_push.
    cbn [flat_map]. simpl chain_at at 1. f_equal.
    destruct l as [kl cl|ll lh cl l1 l2].
    + destruct (x <? kl); [reflexivity|]. destruct r as [kr cr|rl rh cr r1 r2].
      * destruct (kr <=? x).
        -- rewrite concat_push. simpl. reflexivity.
        -- rewrite IHl. symmetry. now apply flat_map_cons_map.
      * rewrite IHl. symmetry. now apply flat_map_cons_map.
    + destruct (x <? ll); [reflexivity|]. destruct (lh <=? x).
      * rewrite IHr. symmetry. now apply flat_map_cons_map.
      * rewrite IHl. symmetry. now apply flat_map_cons_map.
Qed.

(** Trees that differ only in their chains. *)
Fixpoint skel (n : tnode) : tnode :=
  match n with
  | TLeaf k _ => TLeaf k []
  | TNode lo hi _ l r => TNode lo hi [] (skel l) (match r with Some r => Some (skel r) | None => None end)
  end.

Lemma visit_skel x n : visit x (skel n) = visit x n.
Proof.
  induction n as [k ch|lo hi ch l IHl|lo hi ch l r IHl IHr] using tnode_ind'; [reflexivity| |].
  - simpl skel. cbn [visit]. destruct l; simpl skel in *; rewrite ?IHl; reflexivity.
  - simpl skel. cbn [visit]. destruct l, r; simpl skel in *; rewrite ?IHl, ?IHr; reflexivity.
Qed.

Lemma shp_skel P n : forall lo hi n', skel n = skel n' -> shp P lo hi n -> shp P lo hi n'.
Proof.
  induction n as [k ch|lo0 hi0 ch l IHl|lo0 hi0 ch l r IHl IHr] using tnode_ind'; intros lo hi n' E H; destruct n' as [k' ch'|lo' hi' ch' l' [r'|]];
    simpl in E; try discriminate; inversion E; subst; inversion H; subst.
  - constructor; assumption.
  - constructor. eapply IHl; eauto.
  - assert (leafb l' = leafb l /\ leafb r' = leafb r) as [E1 E2].
    { split; [destruct l, l'|destruct r, r']; simpl in *; congruence. }
    eapply shp_two; eauto; congruence.
Qed.

Lemma mark_skel i s e n : skel (fst (mark i s e n)) = skel n.
Proof.
  induction n as [k ch|lo hi ch l IHl|lo hi ch l r IHl IHr] using tnode_ind'; simpl.
  - now destruct (_ && _).
  - destruct (_ || _); [reflexivity|]. destruct (_ && _); [reflexivity|].
    destruct (mark i s e l) as [l' pl]. simpl in *. now rewrite IHl.
  - destruct (_ || _); [reflexivity|]. destruct (_ && _); [reflexivity|].
    destruct (mark i s e l) as [l' pl], (mark i s e r) as [r' pr]. simpl in *. now rewrite IHl, IHr.
Qed.

Lemma pcnt_map_same b ps p : pcnt (map (cons b) ps) (b :: p) = pcnt ps p.
Proof.
  induction ps as [|q ps IH]; simpl; [reflexivity|].
  destruct (path_dec (b :: q) (b :: p)) as [E|E], (path_dec q p) as [E1|E1]; rewrite ?IH; auto; congruence.
Qed.
Lemma pcnt_map_other b ps p : (forall q, p <> b :: q) -> pcnt (map (cons b) ps) p = 0%nat.
Proof.
  intros H. induction ps as [|q ps IH]; simpl; [reflexivity|].
  destruct (path_dec (b :: q) p) as [E|E]; [exfalso; now apply (H q)|assumption].
Qed.

Lemma pcnt_root p : pcnt [[]] p = match p with [] => 1%nat | _ => 0%nat end.
Proof. simpl. destruct (path_dec [] p), p; congruence. Qed.

Lemma mark_chain i s e n : forall p j,
  cnt (chain_at p (fst (mark i s e n))) j = (cnt (chain_at p n) j + if Nat.eqb j i then pcnt (snd (mark i s e n)) p else 0)%nat.
Proof.
  induction n as [k ch|lo hi ch l IHl|lo hi ch l r IHl IHr] using tnode_ind'; intros p j; simpl.
  - destruct ((s <=? k) && (k <? e)); simpl.
    + destruct p as [|b p]; simpl.
      * rewrite count_occ_app. simpl. destruct (path_dec [] []); [|congruence]. destruct (Nat.eq_dec i j), (Nat.eqb_spec j i); try congruence; lia.
      * destruct (path_dec [] (b :: p)); [congruence|]. destruct b; simpl; destruct (j =? i)%nat; reflexivity.
    + destruct (j =? i)%nat; lia.
  - destruct ((e <? lo) || (hi <=? s)); simpl; [destruct (j =? i)%nat; lia|].
    destruct ((s <=? lo) && (hi <? e)); simpl.
    + destruct p as [|b p]; simpl.
      * rewrite count_occ_app. simpl. destruct (path_dec [] []); [|congruence]. destruct (Nat.eq_dec i j), (Nat.eqb_spec j i); try congruence; lia.
      * destruct (path_dec [] (b :: p)); [congruence|]. destruct (j =? i)%nat; lia.
    + specialize (IHl (tl p) j). destruct (mark i s e l) as [l' pl]. simpl in *.
      destruct p as [|[] p]; simpl in *.
      * rewrite pcnt_map_other by congruence. destruct (j =? i)%nat; lia.
      * rewrite pcnt_map_other by congruence. destruct (j =? i)%nat; lia.
      * now rewrite pcnt_map_same.
  - destruct ((e <? lo) || (hi <=? s)); simpl; [destruct (j =? i)%nat; lia|].
    destruct ((s <=? lo) && (hi <? e)); simpl.
    + destruct p as [|b p]; simpl.
      * rewrite count_occ_app. simpl. destruct (path_dec [] []); [|congruence]. destruct (Nat.eq_dec i j), (Nat.eqb_spec j i); try congruence; lia.
      * destruct (path_dec [] (b :: p)); [congruence|]. destruct (j =? i)%nat; lia.
    + specialize (IHl (tl p) j). specialize (IHr (tl p) j).
      destruct (mark i s e l) as [l' pl], (mark i s e r) as [r' pr]. simpl in *.
      rewrite count_occ_app. destruct p as [|[] p]; simpl in *.
      * rewrite !pcnt_map_other by congruence. destruct (j =? i)%nat; lia.
      * rewrite (pcnt_map_other false) by congruence. now rewrite pcnt_map_same.
      * rewrite (pcnt_map_other true) by congruence. rewrite pcnt_map_same, Nat.add_0_r. assumption.
Qed.

Definition covb (x s e : Z) : bool := (s <=? x) && (x <? e).

Lemma mark_search i s e keys n lo hi : shp (gap keys) lo hi n -> In s keys -> In e keys -> s < e ->
  forall x j, lo <= x < hi ->
  cnt (concat (descend_search x (fst (mark i s e n)))) j =
  (cnt (concat (descend_search x n)) j + if Nat.eqb j i && covb x s e then 1 else 0)%nat.
Proof.
  intros H Hs He Hse. induction H as [k hi ch Hk HP|lo hi ch l Hl IHl|lo m hi ch l r Hl IHl Hr IHr Hlr]; intros x j Hx.
  - simpl. destruct (HP s Hs), (HP e He); destruct ((s <=? k) && (k <? e)) eqn:E; simpl;
      rewrite !concat_push, ?app_nil_r; rewrite ?count_occ_app; simpl;
      (destruct (Nat.eq_dec i j), (Nat.eqb_spec j i); try congruence; unfold covb; simpl andb; destruct ((s <=? x) && (x <? e)) eqn:E2; lia).
  - cbn [mark]. destruct ((e <? lo) || (hi <=? s)) eqn:E1.
    { simpl fst. replace (covb x s e) with false by (unfold covb; lia). rewrite andb_false_r. lia. }
    destruct ((s <=? lo) && (hi <? e)) eqn:E2.
    { cbn [fst descend_search]. replace ((x <? lo) || (hi <=? x)) with false by lia.
      rewrite !concat_push, !count_occ_app. simpl (cnt [i] j). replace (covb x s e) with true by (unfold covb; lia).
      rewrite andb_true_r. destruct (Nat.eq_dec i j), (Nat.eqb_spec j i); try congruence; lia. }
    specialize (IHl x j Hx). pose proof (mark_skel i s e l) as HSK.
    destruct (mark i s e l) as [l' pl]. cbn [fst] in *.
    cbn [descend_search]. replace ((x <? lo) || (hi <=? x)) with false by lia.
    rewrite !concat_push, !count_occ_app. rewrite <- Nat.add_assoc. f_equal.
    pose proof (shp_low _ _ _ _ Hl) as HL.
    destruct l as [kl cl|ll lh cl l1 l2], l' as [kl' cl'|ll' lh' cl' l1' l2']; simpl in HSK; try discriminate;
      injection HSK as ?; subst; cbn [t_low] in *; subst; match goal with |- context [x <? ?a] => replace (x <? a) with false by lia end; exact IHl.
  - cbn [mark]. destruct ((e <? lo) || (hi <=? s)) eqn:E1.
    { simpl fst. replace (covb x s e) with false by (unfold covb; lia). rewrite andb_false_r. lia. }
    destruct ((s <=? lo) && (hi <? e)) eqn:E2.
    { cbn [fst descend_search]. replace ((x <? lo) || (hi <=? x)) with false by lia.
      rewrite !concat_push, !count_occ_app. simpl (cnt [i] j). replace (covb x s e) with true by (unfold covb; lia).
      rewrite andb_true_r. destruct (Nat.eq_dec i j), (Nat.eqb_spec j i); try congruence; lia. }
    pose proof (mark_skel i s e l) as HSK. pose proof (mark_skel i s e r) as HSKr.
    pose proof (shp_low _ _ _ _ Hl) as HL. pose proof (shp_low _ _ _ _ Hr) as HR. pose proof (shp_high _ _ _ _ Hl) as HH.
    specialize (IHl x j). specialize (IHr x j).
    destruct (mark i s e l) as [l' pl], (mark i s e r) as [r' pr]. cbn [fst] in *.
    cbn [descend_search]. replace ((x <? lo) || (hi <=? x)) with false by lia.
    rewrite !concat_push, !count_occ_app. rewrite <- Nat.add_assoc. f_equal.
    destruct l as [kl cl|ll lh cl l1 l2], l' as [kl' cl'|ll' lh' cl' l1' l2']; simpl in HSK; try discriminate;
    destruct r as [kr cr|rl rh cr r1 r2], r' as [kr' cr'|rl' rh' cr' r1' r2']; simpl in HSKr, Hlr; try discriminate;
    injection HSK as ?; injection HSKr as ?; subst; cbn [t_low t_high leafb] in *; subst; match goal with |- context [x <? ?a] => replace (x <? a) with false by lia end.
    + destruct (kr <=? x) eqn:E.
      * apply IHr. lia.
      * apply IHl. lia.
    + specialize (HH eq_refl). subst. destruct (rl <=? x) eqn:E.
      * apply IHr. lia.
      * apply IHl. lia.
Qed.

Lemma visit_out P x n lo hi : shp P lo hi n -> leafb n = false -> ~ (lo <= x < hi) -> descend_search x n = [].
Proof.
  intros H NL Hx. destruct H; [discriminate| |]; cbn [descend_search]; now replace ((x <? lo) || (hi <=? x)) with true by lia.
Qed.

(** ** Marking all segments *)

(** Tags of a position. *)
Definition tags (m : list (nat * list path)) (i : nat) : list path :=
  match tag_find i m with Some ps => ps | None => [] end.

Lemma mark_all_skel (l : list seg) : forall i n, skel (fst (mark_all i l n)) = skel n.
Proof.
  induction l as [|[[s e] v] l IH]; intros i n; [reflexivity|]. simpl.
  pose proof (mark_skel i s e n) as H. destruct (mark i s e n) as [n1 ps]. specialize (IH (S i) n1).
  destruct (mark_all (S i) l n1) as [n2 m]. simpl in *. congruence.
Qed.

Lemma mark_all_tags_lt (l : list seg) : forall i n j, (j < i)%nat -> tag_find j (snd (mark_all i l n)) = None.
Proof.
  induction l as [|[[s e] v] l IH]; intros i n j Hj; [reflexivity|]. simpl.
  destruct (mark i s e n) as [n1 ps]. specialize (IH (S i) n1 j ltac:(lia)).
  destruct (mark_all (S i) l n1) as [n2 m]. simpl in *. replace (i =? j)%nat with false by lia. assumption.
Qed.

Lemma mark_all_chain (l : list seg) : forall i n p j,
  cnt (chain_at p (fst (mark_all i l n))) j = (cnt (chain_at p n) j + pcnt (tags (snd (mark_all i l n)) j) p)%nat.
Proof.
  induction l as [|[[s e] v] l IH]; intros i n p j; simpl; [lia|].
  pose proof (mark_chain i s e n p j) as H. destruct (mark i s e n) as [n1 ps].
  specialize (IH (S i) n1 p j). pose proof (mark_all_tags_lt l (S i) n1 i ltac:(lia)) as HT.
  destruct (mark_all (S i) l n1) as [n2 m]. unfold tags in *. simpl in *. rewrite IH, H.
  destruct (Nat.eqb_spec i j) as [->|E].
  - rewrite HT, Nat.eqb_refl. simpl. lia.
  - replace (j =? i)%nat with false by lia. lia.
Qed.

Lemma mark_all_dom (l : list seg) : forall i n j, (i <= j < i + length l)%nat -> exists ps, tag_find j (snd (mark_all i l n)) = Some ps.
Proof.
  induction l as [|[[s e] v] l IH]; intros i n j Hj; simpl in *; [lia|].
  destruct (mark i s e n) as [n1 ps]. specialize (IH (S i) n1 j). destruct (mark_all (S i) l n1) as [n2 m]. simpl in *.
  destruct (Nat.eqb_spec i j); [eauto|]. apply IH. lia.
Qed.

(** Does entry [j] of the list contain [x]? *)
Definition hits (l : list seg) (x : Z) (j : nat) : bool :=
  match nth_error l j with Some (s, e, _) => covb x s e | None => false end.

Lemma mark_all_search keys lo hi (l : list seg) : forall i n, shp (gap keys) lo hi n ->
  (forall s e v, In (s, e, v) l -> In s keys /\ In e keys /\ s < e) ->
  forall x j, lo <= x < hi ->
  cnt (concat (descend_search x (fst (mark_all i l n)))) j =
  (cnt (concat (descend_search x n)) j + if (i <=? j)%nat && hits l x (j - i) then 1 else 0)%nat.
Proof.
  induction l as [|[[s e] v] l IH]; intros i n HS HK x j Hx.
  - simpl. unfold hits. replace (nth_error (@nil seg) (j - i)) with (@None seg) by now destruct (j - i)%nat.
    rewrite andb_false_r. lia.
  - simpl mark_all. destruct (HK s e v (or_introl eq_refl)) as (K1 & K2 & K3).
    pose proof (mark_search i s e keys n lo hi HS K1 K2 K3 x j Hx) as H.
    pose proof (mark_skel i s e n) as HSK. destruct (mark i s e n) as [n1 ps]. cbn [fst] in *.
    assert (shp (gap keys) lo hi n1) as HS1 by (eapply shp_skel; [symmetry; exact HSK|assumption]).
    specialize (IH (S i) n1 HS1 (fun s' e' v' Hin => HK s' e' v' (or_intror Hin)) x j Hx).
    destruct (mark_all (S i) l n1) as [n2 m]. cbn [fst] in *. rewrite IH, H.
    unfold hits. destruct (Nat.eqb_spec j i) as [->|E].
    + replace (S i <=? i)%nat with false by lia. replace (i - i)%nat with 0%nat by lia. simpl nth_error. cbv beta iota.
      replace (i <=? i)%nat with true by lia. simpl. lia.
    + destruct (i <=? j)%nat eqn:E2.
      * replace (S i <=? j)%nat with true by lia. replace (j - i)%nat with (S (j - S i)) by lia. simpl. lia.
      * replace (S i <=? j)%nat with false by lia. simpl. lia.
Qed.

Lemma fresh_chain r keys lo hi : shp (gap keys) lo hi r -> skel r = r -> forall p, chain_at p r = [].
Proof.
  intros _ E p. rewrite <- E. clear E. revert p. induction r as [k ch|l0 h0 ch l IHl|l0 h0 ch l r IHl IHr] using tnode_ind'; intros [|[] p]; simpl; auto.
Qed.

Lemma st_level0_skel : forall n l, (length l <= n)%nat -> map skel (st_level0 l) = st_level0 l.
Proof.
  induction n as [|n IH]; intros l Hn; [destruct l; [reflexivity|simpl in Hn; lia]|].
  destruct l as [|k1 [|k2 l]]; try reflexivity. cbn [st_level0 map skel]. now rewrite IH by (simpl in Hn; lia).
Qed.
Lemma st_level_skel : forall n l, (length l <= n)%nat -> map skel l = l -> map skel (st_level l) = st_level l.
Proof.
  induction n as [|n IH]; intros l Hn H; [destruct l; [reflexivity|simpl in Hn; lia]|].
  destruct l as [|n1 [|n2 l]]; try reflexivity; cbn [map] in H.
  - injection H as H1. cbn [st_level map skel]. now rewrite H1.
  - injection H as H1 H2 H3. cbn [st_level map skel]. rewrite H1, H2, IH; [reflexivity|simpl in Hn; lia|assumption].
Qed.
Lemma st_non_leaf_skel : forall fuel pool l r, map skel l = l -> st_non_leaf fuel pool l = Ok (Some r) -> skel r = r.
Proof.
  induction fuel as [|f IH]; intros pool l r H HR.
  - destruct l as [|n1 [|n2 l]]; simpl in *; try discriminate. injection HR as <-. now injection H.
  - destruct l as [|n1 [|n2 l]]; [discriminate| |].
    + simpl in *. injection HR as <-. now injection H.
    + remember (n1 :: n2 :: l) as l0 eqn:El0.
      assert (st_non_leaf (S f) pool l0 = let* pool' := st_take pool (st_level l0) in st_non_leaf f pool' (st_level l0)) as EE
        by (rewrite El0; reflexivity).
      rewrite EE in HR. destruct (st_take pool (st_level l0)); try discriminate. cbn [bind] in HR.
      eapply IH; [|exact HR]. eapply st_level_skel; eauto.
Qed.
Lemma st_builder_skel fuel pool keys r : st_builder fuel pool keys = Ok (Some r) -> skel r = r.
Proof.
  unfold st_builder. destruct (st_take pool (st_level0 keys)); try discriminate. cbn [bind].
  apply st_non_leaf_skel. eapply st_level0_skel; eauto.
Qed.

(** ** Invariant of a tree state *)

(** Entries of the store are proper segments or deleted ones. *)
Definition store_ok (l : list seg) : Prop := forall g, In g l -> proper g \/ g = seg_default vdef.

(** Live segments. *)
Definition live (t : st_t) : list seg := erase_deleted (store t).

Definition tree_inv (t : st_t) : Prop :=
  valid t = true -> exists r lo hi keys,
    root t = Some r /\ leafb r = false /\ shp (gap keys) lo hi r /\
    (forall p j, cnt (chain_at p r) j = pcnt (tags (tagged t) j) p) /\
    (forall x j, lo <= x < hi -> cnt (concat (descend_search x r)) j = if hits (store t) x j then 1%nat else 0%nat) /\
    (forall g s e v, In g (store t) -> g = (s, e, v) -> proper g -> lo <= s /\ e <= hi).

Definition inv (t : st_t) : Prop := store_ok (store t) /\ tree_inv t.

Lemma covb_deleted x : covb x 0 0 = false.
Proof. unfold covb. lia. Qed.

Lemma erase_deleted_proper l : store_ok l -> forall g, In g (erase_deleted l) <-> In g l /\ proper g.
Proof.
  intros H g. unfold StModel.erase_deleted. rewrite filter_In. split.
  - intros [H1 H2]. split; [assumption|]. destruct (H g H1) as [|E]; [assumption|]. apply deleted_default in E. rewrite E in H2. discriminate.
  - intros [H1 H2]. split; [assumption|]. now rewrite proper_not_deleted.
Qed.

Lemma seg_keys_in l s e (v : V) : In (s, e, v) l -> In s (seg_keys l) /\ In e (seg_keys l).
Proof.
  induction l as [|[[s' e'] v'] l IH]; simpl; [tauto|]. intros [E|H]; [injection E as -> -> ->; tauto|].
  apply IH in H. tauto.
Qed.

Lemma incr_bounds keys : incr keys -> forall k, In k keys -> hd 0 keys <= k <= last keys 0.
Proof.
  induction keys as [|a keys IH]; intros H k Hk; [contradiction|]. destruct H as [H1 H2].
  destruct keys as [|b keys].
  - simpl in *. intuition; lia.
  - change (last (a :: b :: keys) 0) with (last (b :: keys) 0). simpl hd in *.
    specialize (IH H2). destruct Hk as [<-|Hk].
    + pose proof (IH b (or_introl eq_refl)). specialize (H1 b (or_introl eq_refl)). lia.
    + specialize (IH k Hk). specialize (H1 b (or_introl eq_refl)). lia.
Qed.

Lemma build_ok t : inv t -> exists t', st_build veqb vdef t = Ok t' /\ inv t' /\
  store t' = erase_deleted (store t) /\ (valid t' = true <-> erase_deleted (store t) <> []).
Proof.
  intros [HS HT]. unfold st_build. set (sg := erase_deleted (store t)).
  assert (store_ok sg) as HSG.
  { intros g Hg. apply (erase_deleted_proper _ HS) in Hg. tauto. }
  destruct (create_leaf_keys (seg_keys sg)) as [|k0 ks] eqn:EK.
  - eexists. split; [reflexivity|]. split; [|split; [reflexivity|]].
    + split; [exact HSG|]. intros H. discriminate.
    + cbn [valid]. split; [discriminate|]. intros H. exfalso. destruct sg as [|[[s e] v] l] eqn:Esg; [congruence|].
      assert (In s (create_leaf_keys (seg_keys ((s, e, v) :: l)))) as HI; [|rewrite EK in HI; contradiction].
      change (In s (uniq (sort_keys (s :: e :: seg_keys l)))). apply uniq_In. eapply Permutation_in; [symmetry; apply sort_keys_perm|]. now left.
  - set (keys := k0 :: ks) in *.
    assert (keys = uniq (sort_keys (seg_keys sg))) as EKS.
    { rewrite <- EK. unfold create_leaf_keys in *. destruct (seg_keys sg) as [|a [|b l]]; [discriminate|discriminate|reflexivity]. }
    assert (incr keys) as HI by (rewrite EKS; apply uniq_incr, sort_keys_nondec).
    assert (forall k, In k keys <-> In k (seg_keys sg)) as HK.
    { intros k. rewrite EKS, uniq_In. split; apply Permutation_in; [|symmetry]; apply sort_keys_perm. }
    assert (sg <> []) as NSG by (intros E; rewrite E in EK; discriminate).
    assert (2 <= length keys)%nat as H2.
    { destruct sg as [|[[s e] v] l] eqn:Esg; [congruence|]. 
      destruct (seg_keys_in ((s, e, v) :: l) s e v (or_introl eq_refl)) as [K1 K2].
      apply HK in K1, K2. assert (In (s, e, v) sg) as Hin by (rewrite Esg; now left).
      assert (s < e) as Hlt by (unfold sg in Hin; apply (erase_deleted_proper _ HS) in Hin; apply Hin).
      unfold keys in *. destruct ks as [|k1 ks]; [|simpl; lia]. simpl in K1, K2. intuition; lia. }
    assert (count_needed_nonleaf_nodes (S (length keys)) (length keys) 0 = Ok (0 + used (S (length keys)) (length keys))%nat) as HC
      by (apply count_needed_used; lia).
    rewrite HC. cbn [bind].
    destruct (st_builder_ok keys HI ltac:(unfold keys; congruence) _ HC H2) as (r & ER & HSH & NL). rewrite ER. cbn [bind].
    pose proof (st_builder_skel _ _ _ _ ER) as SK.
    pose proof (fresh_chain _ _ _ _ HSH SK) as FC.
    assert (forall s e v, In (s, e, v) sg -> In s keys /\ In e keys /\ s < e) as HSK.
    { intros s e v Hin. destruct (seg_keys_in sg s e v Hin). rewrite !HK. repeat split; auto.
      unfold sg in Hin. apply (erase_deleted_proper _ HS) in Hin. apply Hin. }
    pose proof (mark_all_skel sg 0 r) as MS. pose proof (mark_all_chain sg 0 r) as MC.
    pose proof (mark_all_search keys _ _ sg 0 r HSH HSK) as MSR.
    destruct (mark_all 0 sg r) as [r' m]. cbn [fst snd] in *.
    eexists. split; [reflexivity|]. split; [|split; [reflexivity|]].
    + split; [exact HSG|]. intros _. cbn [root tagged store].
      exists r', (hd 0 keys), (last keys 0), keys. split; [reflexivity|]. split.
      { destruct r, r'; simpl in *; congruence. }
      split; [eapply shp_skel; [symmetry; exact MS|assumption]|]. split.
      { intros p j. rewrite MC, FC. reflexivity. }
      split.
      { intros x j Hx. rewrite MSR by assumption. 
        assert (concat (descend_search x r) = []) as ->.
        { rewrite descend_visit. clear -FC. induction (visit x r) as [|p l IH]; simpl; [reflexivity|]. now rewrite FC, IH. }
        replace (j - 0)%nat with j by lia. reflexivity. }
      intros g s e v Hg -> Hp. apply HSK in Hg. destruct Hg as (K1 & K2 & _).
      pose proof (incr_bounds keys HI s K1). pose proof (incr_bounds keys HI e K2). lia.
    + cbn [valid]. split; auto.
Qed.

(** ** Removing a position *)
Lemma find_pos_spec v l : match find_pos v l with
  | Some p => exists A B, l = A ++ v :: B /\ length A = p
  | None => ~ In v l end.
Proof.
  induction l as [|h t IH]; simpl; [tauto|]. destruct (Nat.eqb_spec h v) as [->|E].
  - exists [], t. auto.
  - destruct (find_pos v t) as [p|]; simpl.
    + destruct IH as (A & B & -> & <-). exists (h :: A), B. auto.
    + tauto.
Qed.

Lemma remove_from_chain_cnt v l j :
  cnt (remove_from_chain v l) j = (cnt l j - if Nat.eqb j v then 1 else 0)%nat.
Proof.
  unfold remove_from_chain. pose proof (find_pos_spec v l) as H. destruct (find_pos v l) as [p|].
  - destruct H as (A & B & -> & <-). rewrite set_nth_app.
    destruct B as [|z B' _] using rev_ind.
    + rewrite last_last, removelast_last. rewrite count_occ_app. simpl.
      destruct (Nat.eq_dec v j), (Nat.eqb_spec j v); try congruence; lia.
    + replace (last (A ++ v :: B' ++ [z]) 0%nat) with z by (now rewrite app_comm_cons, app_assoc, last_last).
      rewrite app_comm_cons, app_assoc, removelast_last. rewrite !count_occ_app. simpl. rewrite count_occ_app. simpl.
      destruct (Nat.eq_dec v j), (Nat.eqb_spec j v), (Nat.eq_dec z j); try congruence; lia.
  - destruct (Nat.eqb_spec j v) as [->|]; [|lia]. apply (count_occ_not_In Nat.eq_dec) in H. lia.
Qed.
End P.
