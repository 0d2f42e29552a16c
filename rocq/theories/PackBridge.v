(** From the layout of the buffer to the specification of packed_trie_map. *)
From Coq Require Import List ZArith Lia Bool Arith Sorted.
From Verif Require Import Base TrieModel TrieSpec TrieProofs TrieProofs2 TrieProofs3 TrieProps
  PackModel PackSpec PackProofs PackSim PackSim2 PackCopy PackTable PackSave.
Import ListNotations.
Open Scope Z_scope.

Section BRIDGE.
Context {V : Type}.
Variable T : ptraits.
Hypothesis HT : pt_ok T.
Local Notation tnode := (tnode V).

(** the map represents a tree with this content *)
Definition packed (pm : pmap V) (m : content) (t : tnode) : Prop :=
  packs T pm t /\ shows t m /\ Z.of_nat (4 * node_count t) <= pmod T /\ (forall a, In a (store pm) -> has_val a t).

Lemma entries_shows (t : tnode) m : wf t -> listing m (entries [] t) -> shows t m.
Proof using Type.
  intros Hw [_ L]. split; auto. intros k.
  assert (H : forall v, lookup t k = Some v <-> m k = Some v).
  { intros v. rewrite <- L, in_entries by auto. split; [intros H; exists k; auto|intros (s & -> & H); auto]. }
  destruct (lookup t k) as [v|] eqn:E; [symmetry; apply H; auto|]. destruct (m k) as [v|]; auto.
  specialize (H v). assert (None = Some v) by (apply H; auto). discriminate.
Qed.

Lemma fits_tree (t : tnode) m l : shows t m -> listing m l -> fits T l ->
  tunits T t /\ Z.of_nat (4 * node_count t) <= pmod T /\ Z.of_nat (count_values t) < null_value T.
Proof using HT.
  intros S L [F1 F2]. pose proof (listing_unique _ _ _ S L) as ->. destruct S as [Hw _].
  pose proof (nodes_units t Hw). pose proof (values_nodes t). fold (pmod T) in F2. pose proof (pmod_256 T HT).
  split; [eapply units_tunits; eauto|]. unfold null_value. split; lia.
Qed.

Lemma pack_total os m l : after_calls os m -> listing m l -> fits T l ->
  exists pm, pack T (trun os) = Ok pm /\ packed pm m (trun os).
Proof using HT.
  intros H L F. pose proof (calls_show _ _ H) as S. destruct (fits_tree _ _ _ S L F) as (H1 & H2 & H3).
  destruct (compact_packs T _ HT H1 H2 H3) as (pm & E & P). exists pm. repeat split; auto; [apply S|apply S|].
  intros a Ha. eapply pack_vals; eauto.
Qed.

Lemma table_tree (l : list (list Z * V)) m : listing m l -> zero_free l -> exists t,
  traverse_range (S (S (list_max (map (fun e => length (fst e)) l)))) l 0 = Ok t /\ shows t m.
Proof using Type.
  intros L Hz. pose proof L as [Ls _].
  destruct (traverse_ok (S (S (list_max (map (fun e => length (fst e)) l)))) (S (S (list_max (map (fun e => length (fst e)) l)))) [] [] l) as (t & E & W & En).
  - constructor.
  - apply Forall_forall. intros e _. exists (fst e). reflexivity.
  - exact Ls.
  - apply Forall_forall. intros e He. unfold zero_free in Hz. rewrite Forall_forall in Hz. split; [auto|].
    assert (length (fst e) <= list_max (map (fun e => length (fst e)) l))%nat; [|lia].
    assert (HL : Forall (fun k => (k <= list_max (map (fun e => length (fst e)) l))%nat) (map (fun e => length (fst e)) l)) by (apply list_max_le; lia).
    rewrite Forall_forall in HL. apply HL. apply (in_map (fun e => length (fst e))). auto.
  - cbn; lia.
  - lia.
  - exists t. split; auto. apply entries_shows; auto. rewrite En. auto.
Qed.

Lemma pack_table_total (l : list (list Z * V)) m : listing m l -> zero_free l -> fits T l ->
  exists pm t, pack_table T l = Ok pm /\ packed pm m t.
Proof using HT.
  intros L Hz F. destruct (table_tree l m L Hz) as (t & E & S). unfold pack_table. rewrite E. cbn [bind].
  destruct (fits_tree _ _ _ S L F) as (H1 & H2 & H3).
  destruct (compact_packs T _ HT H1 H2 H3) as (pm & Ep & P). exists pm, t. repeat split; auto; [apply S|apply S|].
  intros a Ha. eapply pack_vals; eauto.
Qed.

(** saving *)
Lemma packed_handles F pm m t : packed pm m t -> saveable F m -> Forall (handles F) (store pm).
Proof using Type.
  intros (P & [Hw Hm] & _ & Hv) (_ & HF & _). apply Forall_forall. intros a Ha.
  destruct (has_val_lookup _ _ Hw (Hv _ Ha)) as (k & Hk). apply (HF k). rewrite <- Hm. auto.
Qed.
Lemma packed_size pm m t : packed pm m t -> length (store pm) = length (entries [] t).
Proof using Type. intros ((o & _ & _ & _ & L & _) & _). rewrite L. apply count_entries. Qed.
Lemma packed_cells pm m t : packed pm m t -> Z.of_nat (length (pk pm)) < 2 ^ 64 /\ (length (store pm) <= length (pk pm))%nat.
Proof using HT.
  intros ((o & _ & R & L & Lc & _) & _ & H & _). pose proof (rep_total _ _ _ _ _ _ R) as E. pose proof (total_cells_nodes t).
  pose proof (values_nodes t). assert (1 <= node_count t)%nat by (destruct t; rewrite node_count_eq; lia).
  split; [|lia]. unfold pmod in H. assert (2 ^ (8 * Z.of_nat (pbytes T)) <= 2 ^ 64) by (destruct HT; apply Z.pow_le_mono_r; lia). lia.
Qed.
Lemma packed_saves F pm m t : packed pm m t -> saveable F m ->
  exists vs, vs = value_section F (store pm) /\
    save_state T F pm = Ok (vs ++ blob_section T 255 (Z.of_nat (pbytes T)) (pk pm) 255) /\
    forall c1 w c2 T' junk, pbytes T' = pbytes T \/ c1 <> 255 \/ w <> Z.of_nat (pbytes T') ->
      load_state T' F junk (vs ++ blob_section T c1 w (pk pm) c2) =
      if negb (c1 =? 255) then Throw E_invalid_arg
      else if negb (w =? Z.of_nat (pbytes T')) then Throw E_invalid_arg
      else if negb (c2 =? 255) then Throw E_invalid_arg else Ok pm.
Proof using HT.
  intros P S. pose proof (packed_handles _ _ _ _ P S) as HF. pose proof (packed_cells _ _ _ P) as [Hc Hl].
  pose proof (packed_size _ _ _ P) as Hz. pose proof P as (Pk & Sh & _). destruct S as (Hs & _ & Hn).
  specialize (Hn _ (listing_entries _ _ Sh)). eexists. split; [reflexivity|]. split; [apply (save_ok T F pm t Pk HF)|].
  intros c1 w c2 T' junk HX. unfold load_state.
  assert (Bl : (length (pk pm) <= length (blob_section T c1 w (pk pm) c2))%nat) by (apply blob_length; destruct HT; lia).
  destruct (load_values_ok F (store pm) (blob_section T c1 w (pk pm) c2) junk Hs HF) as (bv & ->); [rewrite Hz; exact Hn|lia|].
  cbn [bind]. destruct HX as [HX|HX].
  - assert (EB : blob_section T c1 w (pk pm) c2 = blob_section T' c1 w (pk pm) c2) by (unfold blob_section; rewrite HX; reflexivity).
    rewrite EB at 2. rewrite load_blob_ok.
    + destruct (negb (c1 =? 255)), (negb (w =? Z.of_nat (pbytes T'))), (negb (c2 =? 255)); try reflexivity.
      rewrite (traverse_packed_ok T pm t Pk). cbn [bind]. destruct pm; reflexivity.
    + lia.
    + rewrite app_length. lia.
    + destruct Pk as (o & _ & _ & _ & _ & _ & Hr). unfold in_range, pmod in *. rewrite HX. exact Hr.
  - unfold load_blob, blob_section.
    rewrite bv_read_app by reflexivity. rewrite firstn_exact by reflexivity. cbn [le_value]. rewrite Z.mul_0_r, Z.add_0_r.
    destruct (Z.eqb_spec c1 255) as [->|]; cbn [negb]; [|reflexivity].
    rewrite bv_read_app by reflexivity. rewrite firstn_exact by reflexivity. cbn [le_value]. rewrite Z.mul_0_r, Z.add_0_r.
    destruct (Z.eqb_spec w (Z.of_nat (pbytes T'))) as [->|]; cbn [negb]; [|reflexivity].
    destruct HX; congruence.
Qed.

Lemma made_packed pm m : made T pm m -> exists t, packed pm m t.
Proof using HT.
  induction 1 as [os m l pm H L F E|l m pm L Hz F E|pm m pm' H [t IH] E|pm m H [t IH]|pm m F bytes junk pm' H [t IH] S E E'].
  - destruct (pack_total _ _ _ H L F) as (pm' & E' & P). rewrite E in E'. injection E' as <-. eauto.
  - destruct (pack_table_total _ _ L Hz F) as (pm' & t & E' & P). rewrite E in E'. injection E' as <-. eauto.
  - destruct IH as (P & S & Hc & Hv). destruct (pcopy_ok T pm t P) as (m' & E' & P'). rewrite E in E'. injection E' as <-.
    exists t. split; [exact P'|]. split; [exact S|]. split; [exact Hc|]. intros a Ha. apply Hv. exact (pcopy_from T pm _ E a Ha).
  - exists t. exact IH.
  - destruct (packed_saves _ _ _ _ IH S) as (vs & _ & Es & El). rewrite E in Es. injection Es as ->.
    rewrite El in E' by auto. rewrite !Z.eqb_refl in E'. cbn [negb] in E'. injection E' as <-. eauto.
Qed.

Lemma tagged_nil (l : list (list Z * V)) : tagged [] l = l.
Proof using Type. unfold tagged. rewrite <- (map_id l) at 2. apply map_ext. intros []; reflexivity. Qed.

Section MAP.
Variables (pm : pmap V) (m : content (V := V)) (t : tnode).
Hypothesis HP : packed pm m t.
Let Pk : packs T pm t := proj1 HP.
Let Hw : wf t := proj1 (proj1 (proj2 HP)).
Let Hm : forall k, lookup t k = m k := proj2 (proj1 (proj2 HP)).

(** ** find *)
Lemma pfind_stored k v : m k = Some v -> exists o x R px e, root_pos pm = Ok o /\ pos t [] k v R x /\ pfind T pm k = Ok px /\
  isim T pm o x px /\ pend T pm = Ok e /\ isim T pm o (tend t) e.
Proof using HP HT Hm Hw Pk.
  intros Hk. rewrite <- Hm in Hk. destruct (pfind_hit T HT pm t Pk Hw k v Hk) as (o & x & R & px & Er & P & E & S).
  destruct (pend_ok T pm t Pk) as (o' & e & Er' & Ee & Se). rewrite Er in Er'. injection Er' as <-.
  exists o, x, R, px, e. auto 10.
Qed.
Lemma pfind_find k v : m k = Some v -> exists px e, pfind T pm k = Ok px /\ pend T pm = Ok e /\
  piter_deref pm px = Ok (k, v) /\ piter_eqb px e = Ok false.
Proof using HP HT Hm Hw Pk.
  intros Hk. destruct (pfind_stored _ _ Hk) as (o & x & R & px & e & Er & P & E & S & Ee & Se). exists px, e.
  split; auto. split; auto. split; [apply (pderef_ok T pm _ _ _ _ _ _ _ _ P S)|].
  eapply (normal_end_eqb T pm o t [] x (tend t)); eauto; [|apply tend_at_end]. destruct P as (n & rest & _ & _ & -> & _). reflexivity.
Qed.
Lemma pfind_none k : m k = None -> exists px e, pfind T pm k = Ok px /\ pend T pm = Ok e /\ piter_eqb px e = Ok true.
Proof using HP HT Hm Hw Pk.
  intros Hk. rewrite <- Hm in Hk. destruct (pfind_miss T HT pm t Pk Hw k Hk) as (o & px & Er & E & S).
  destruct (pend_ok T pm t Pk) as (o' & e & Er' & Ee & Se). rewrite Er in Er'. injection Er' as <-.
  exists px, e. split; auto. split; auto. eapply (end_eqb T pm o t [] []); eauto; apply tend_at_end.
Qed.

(** ** prefix_search *)
Lemma alive_root k : m k <> None -> alive t.
Proof using HP HT Hm Hw Pk.
  intros Hk. rewrite <- Hm in Hk. destruct t as [[v|] [|x cs]]; [left|left|exfalso|right]; try discriminate.
  destruct k; cbn in Hk; congruence.
Qed.
Lemma pprefix_walk p : exists r first last l, pprefix_search T pm p = Ok r /\ prbegin T pm r = Ok first /\ prend T pm r = Ok last /\
  listing (c_prefix p m) l /\ forall fuel, (length l + 2 <= fuel)%nat -> pwalk T fuel pm first last = Ok l.
Proof using HP HT Hm Hw Pk.
  assert (N : (find_prefix_node t p = None \/ count_values t = O) -> exists r first last l, pprefix_search T pm p = Ok r /\ prbegin T pm r = Ok first /\ prend T pm r = Ok last /\
     listing (c_prefix p m) l /\ forall fuel, (length l + 2 <= fuel)%nat -> pwalk T fuel pm first last = Ok l).
  { intros HN. destruct (pprefix_none T HT pm t Pk Hw p HN) as (bf & E). exists (PR true None bf), (empty_piter T), (empty_piter T), [].
    split; auto. split; [reflexivity|]. split; [reflexivity|]. split.
    - split; [constructor|]. intros k v. split; [intros []|]. intros Hc. apply c_prefix_iff in Hc as (r & -> & Hk). exfalso.
      rewrite <- Hm in Hk. destruct HN as [HN|HN].
      + unfold lookup in Hk. assert (En : find_prefix_node t (p ++ r) = None); [|rewrite En in Hk; discriminate].
        clear -HN. revert HN. generalize t. induction p as [|c p IH]; cbn; [discriminate|].
        intros u. destruct (find_child c (nch u)) as [[]|]; auto.
      + rewrite (count_entries []) in HN. assert (HI : In (p ++ r, v) (entries [] t)) by (rewrite in_entries by auto; exists (p ++ r); auto).
        destruct (entries [] t); [destruct HI|discriminate].
    - intros [|f] Hf; [cbn in Hf; lia|]. reflexivity. }
  destruct (find_prefix_node t p) as [n|] eqn:En; [|apply N; auto].
  destruct (count_values t) as [|cv] eqn:Ec; [apply N; auto|]. clear N.
  destruct (pprefix_some T HT pm t Pk Hw p n En) as (o & lo & E & L & R); [congruence|].
  pose proof (find_prefix_wf _ _ _ Hw En) as Hn.
  assert (Ha : alive n).
  { destruct p as [|c p]; [|exact (find_prefix_alive _ _ _ _ Hw En)]. cbn in En. injection En as <-.
    clear -Ec. destruct t as [[v|] [|x cs]]; [left|left|exfalso; cbn in Ec; discriminate|right]; discriminate. }
  destruct (rbegin_spec n p Hn Ha) as (s & v & Rr & x & Ee & Eb & P).
  destruct (prbegin_ok T HT pm n lo o p x L R Eb) as (px & Epx & Sx).
  destruct (prend_ok T pm n lo o p L R) as (py & Epy & Sy).
  exists (PR true (Some o) p), px, py, (tagged p ((s, v) :: Rr)). split; auto. split; auto. split; auto. split.
  - rewrite <- Ee, <- (entries_ext_prefix n). split; [apply entries_sorted; auto|].
    intros k w. rewrite in_entries, c_prefix_iff by auto. split.
    + intros (r & -> & Hl). exists r. split; auto. rewrite <- Hm, (lookup_app _ _ _ _ En). auto.
    + intros (r & -> & Hl). exists r. split; auto. rewrite <- Hm, (lookup_app _ _ _ _ En) in Hl. auto.
  - intros f Hf. apply (pwalk_ok T HT pm o n p s v Rr x (rend (Some n, p)) px py Hn P (rend_at_end _ _) Sx Sy).
    unfold tagged in Hf. rewrite map_length in Hf. cbn in Hf. lia.
Qed.

(** ** begin and end *)
Lemma pbegin_walk : exists first last l, pbegin T pm = Ok first /\ pend T pm = Ok last /\ listing (c_del m []) l /\
  forall fuel, (length l + 2 <= fuel)%nat -> pwalk T fuel pm first last = Ok l.
Proof using HP HT Hm Hw Pk.
  destruct (pend_ok T pm t Pk) as (o & e & Er & Ee & Se).
  destruct (nch t) as [|x0 cs0] eqn:En.
  - destruct (pbegin_leaf T pm t Pk En) as (o' & px & Er' & Ep & Sx). rewrite Er in Er'. injection Er' as <-.
    exists px, e, (centries [] (nch t)). split; auto. split; auto. split; [apply centries_nonroot; apply HP|].
    rewrite En. cbn [centries flat_map]. intros [|f] Hf; [cbn in Hf; lia|]. cbn [pwalk].
    rewrite (end_eqb T pm o t [] [] (tend t) (tend t) px e) by (auto; apply tend_at_end). reflexivity.
  - destruct (tbegin_gen t Hw) as (s & v & R & x & Ec & Eb & P); [congruence|].
    destruct (pbegin_ok T HT pm t Pk x) as (o' & px & Er' & Ep & Sx); [congruence|auto|]. rewrite Er in Er'. injection Er' as <-.
    exists px, e, (centries [] (nch t)). split; auto. split; auto. split; [apply centries_nonroot; apply HP|].
    intros f Hf. rewrite Ec in *. rewrite (pwalk_ok T HT pm o t [] s v R x (tend t) px e Hw P (tend_at_end _) Sx Se) by (cbn in Hf; lia).
    rewrite tagged_nil. reflexivity.
Qed.
Lemma pos_split l A k v B R x : listing m l -> l = A ++ (k, v) :: B -> pos t [] k v R x -> R = B.
Proof using HP HT Hm Hw Pk.
  intros L El P. pose proof (listing_unique _ _ _ (proj1 (proj2 HP)) L) as E.
  destruct (pos_total _ _ _ _ _ _ Hw P) as (B1 & F1 & _). symmetry. rewrite <- E, El in F1.
  eapply (split_unique A B1); [|exact F1]. rewrite <- El, E. apply entries_sorted; auto.
Qed.
Lemma pinc_next l A k1 v1 B : listing m l -> l = A ++ (k1, v1) :: B ->
  exists x1 x2 e, pfind T pm k1 = Ok x1 /\ piter_inc T pm x1 = Ok x2 /\ pend T pm = Ok e /\
    match B with
    | (k2, v2) :: _ => piter_deref pm x2 = Ok (k2, v2) /\ piter_eqb x2 e = Ok false
    | [] => piter_eqb x2 e = Ok true
    end.
Proof using HP HT Hm Hw Pk.
  intros L El. assert (Hk : m k1 = Some v1) by (apply (proj2 L); rewrite El; apply in_or_app; right; left; auto).
  destruct (pfind_stored _ _ Hk) as (o & x & R & px & e & Er & P & E & S & Ee & Se).
  pose proof (pos_split _ _ _ _ _ _ _ L El P) as ->.
  destruct (inc_spec _ _ _ _ _ _ Hw P) as (x' & Ex & X').
  destruct (pinc_ok T HT pm o t [] k1 v1 B x px P S x' Ex) as (px' & Epx & Sx').
  exists px, px', e. split; auto. split; auto. split; auto. destruct B as [|[k2 v2] B].
  - apply (end_eqb T pm o t [] [] x' (tend t)); auto; apply tend_at_end.
  - split; [apply (pderef_ok T pm _ _ _ _ _ _ _ _ X' Sx')|].
    eapply (normal_end_eqb T pm o t [] x' (tend t)); eauto; [|apply tend_at_end]. destruct X' as (n & rest & _ & _ & -> & _). reflexivity.
Qed.

(** ** stepping back *)
Lemma leaf_if k v R x : pos t [] k v R x -> (forall c s, m (k ++ c :: s) = None) ->
  forall n rest, stk x = (n, O) :: rest -> nch n = [].
Proof using HP HT Hm Hw Pk.
  intros (n' & rest' & Hc & Hv & -> & _) Hext n rest Es. cbn in Es. injection Es as <- <-.
  pose proof (canon_find _ _ _ _ _ Hw Hc) as Hf. pose proof (find_prefix_wf _ _ _ Hw Hf) as Hn.
  destruct (nch n') as [|[c sub] cs] eqn:En; auto. exfalso.
  destruct (wf_child n' O c sub Hn) as [Hws Has]; [rewrite En; auto|].
  destruct (alive_has_key sub Hws Has) as (r & w & Hr). specialize (Hext c r).
  rewrite <- Hm, (lookup_app _ _ _ _ Hf), lookup_cons, En in Hext. cbn in Hext. rewrite Z.eqb_refl in Hext. congruence.
Qed.
Lemma step_back o A k1 v1 k2 v2 B x px : entries [] t = A ++ (k1, v1) :: (k2, v2) :: B -> pos t [] k2 v2 B x -> isim T pm o x px ->
  (forall c s, m (k2 ++ c :: s) = None) ->
  exists x' px', piter_dec T pm px = Ok px' /\ pos t [] k1 v1 ((k2, v2) :: B) x' /\ isim T pm o x' px'.
Proof using HP HT Hm Hw Pk.
  intros E P S Hext. pose proof (leaf_if _ _ _ _ P Hext) as Hl.
  destruct (dec_spec_leaf t [] k2 v2 B x A k1 v1 Hw P Hl E) as (x' & Ex & X').
  assert (Hk2 : k2 <> []).
  { intros ->. pose proof (entries_sorted [] t Hw) as Hs. rewrite E, map_app in Hs. apply ss_app_inv in Hs as [_ Hs].
    cbn in Hs. inversion Hs as [|? ? _ Hf]; subst. inversion Hf as [|? ? Hk _]; subst. destruct k1; exact Hk. }
  destruct (pdec_leaf_case T HT pm o t [] k2 v2 B x px x' P S) as (px' & Epx & Sx'); auto.
  { destruct X' as (n & rest & _ & _ & -> & _). reflexivity. }
  exists x', px'. auto.
Qed.
Lemma end_back o A k v e : entries [] t = A ++ [(k, v)] -> m [] = None -> isim T pm o (tend t) e ->
  exists x' px', piter_dec T pm e = Ok px' /\ pos t [] k v [] x' /\ isim T pm o x' px'.
Proof using HP HT Hm Hw Pk.
  intros E H0 S. assert (Hv : nval t = None) by (rewrite <- lookup_nil, Hm; auto).
  destruct (dec_spec_end t [] (tend t) A k v Hw (tend_at_end _) Hv E) as (x' & Ex & X').
  destruct (pdec_end_case T HT pm o t [] (tend t) e x' (tend_at_end _) S Hv Ex) as (px' & Epx & Sx').
  { destruct X' as (n & rest & _ & _ & -> & _). eexists. reflexivity. }
  exists x', px'. auto.
Qed.
Lemma pback_all l : listing m l -> m [] = None -> (forall k c s, m k <> None -> m (k ++ c :: s) = None) ->
  exists e, pend T pm = Ok e /\ pwalk_back T (length l) pm e = Ok (rev l).
Proof using HP HT Hm Hw Pk.
  intros L H0 Hpf. pose proof (listing_unique _ _ _ (proj1 (proj2 HP)) L) as El.
  destruct (pend_ok T pm t Pk) as (o & e & Er & Ee & Se). exists e. split; auto.
  assert (G : forall X k w Y x px, entries [] t = X ++ (k, w) :: Y -> pos t [] k w Y x -> isim T pm o x px ->
     pwalk_back T (length X) pm px = Ok (rev X)).
  { induction X as [|[k1 w1] X IH] using rev_ind; intros k w Y x px E P S; [reflexivity|].
    rewrite app_length, Nat.add_1_r, rev_app_distr. cbn [rev app pwalk_back]. rewrite <- app_assoc in E. cbn [app] in E.
    destruct (step_back o X k1 w1 k w Y x px E P S) as (x' & px' & Epx & X' & Sx').
    { intros c s. apply Hpf. destruct L as [_ L]. intros N. assert (m k = Some w); [|congruence].
      apply L. rewrite El, E. apply in_or_app. right. right. left. reflexivity. }
    rewrite Epx. cbn [bind]. rewrite (pderef_ok T pm _ _ _ _ _ _ _ _ X' Sx'). cbn [bind app].
    rewrite (IH k1 w1 ((k, w) :: Y) x' px' E X' Sx'). reflexivity. }
  destruct l as [|e0 l0] eqn:E0; [reflexivity|]. rewrite <- E0 in *. assert (Hl : l <> []) by (subst; discriminate). clear E0 e0 l0.
  destruct (exists_last Hl) as (X & [k w] & EX). rewrite EX in *. rewrite app_length, Nat.add_1_r, rev_app_distr. cbn [rev app pwalk_back].
  destruct (end_back o X k w e) as (x' & px' & Epx & X' & Sx'); auto.
  rewrite Epx. cbn [bind]. rewrite (pderef_ok T pm _ _ _ _ _ _ _ _ X' Sx'). cbn [bind app].
  rewrite (G X k w [] x' px') by auto. reflexivity.
Qed.

(** ** nodes *)
Lemma pnode_path_ok : forall path lo p n, (1 <= lo)%nat -> rep T (pk pm) (store pm) lo p n -> wf n ->
  match find_prefix_node n path with
  | Some q => exists o lo', pnode_path T pm (Some p) path = Ok (Some o) /\ (1 <= lo')%nat /\ rep T (pk pm) (store pm) lo' o q
  | None => pnode_path T pm (Some p) path = Ok None
  end.
Proof using HT.
  induction path as [|c path IH]; intros lo p n L R Wn; cbn [find_prefix_node pnode_path]; [eauto|].
  unfold pnode_child. destruct (rep_head _ _ _ _ _ _ R) as (z & _ & _ & Es). rewrite (rd_some pm _ _ Es). cbn [bind].
  assert (NN : forall path, pnode_path T pm None path = Ok None) by (induction path0; cbn; auto).
  destruct (nch n) as [|x cs] eqn:En.
  - cbn [length find_child]. change (Z.of_nat (2 * 0) =? 0) with true. cbn [bind]. apply NN.
  - rewrite <- En. replace (Z.of_nat (2 * length (nch n)) =? 0) with false by (symmetry; apply Z.eqb_neq; rewrite En; cbn [length]; lia).
    replace (Z.of_nat (2 * length (nch n)) / 2) with (Z.of_nat (length (nch n))) by (rewrite Nat2Z.inj_mul, Z.mul_comm, Z.div_mul; lia).
    rewrite Nat2Z.id, (find_child_pos_ok T HT pm lo p n c L R Wn) by congruence. cbn [bind].
    destruct (find_child c (nch n)) as [[i sub]|] eqn:Ec; [|cbn [bind]; apply NN].
    apply find_child_nth in Ec. destruct (rep_child _ _ _ _ _ _ _ _ _ R Ec) as (lo' & o & _ & _ & E2 & Ho & R' & Ll).
    replace (p + 2 + 2 * i + 1)%nat with (p + 3 + 2 * i)%nat by lia. rewrite (rd_some pm _ _ E2). cbn [bind].
    rewrite back_ok by lia. cbn [bind]. replace (p - (p - o))%nat with o by lia.
    destruct (wf_child n i c sub Wn Ec) as [Wsub _]. apply (IH lo' o sub); auto. lia.
Qed.
Lemma pnodes p : exists root n, proot_node pm = Ok root /\ pnode_path T pm root p = Ok n /\
  (n <> None <-> p = [] \/ exists s, m (p ++ s) <> None) /\
  (exists b, pnode_has_value T pm n = Ok b /\ (b = true <-> m p <> None)) /\
  (exists b, pnode_has_child pm n = Ok b /\ (b = true <-> exists c s, m (p ++ c :: s) <> None)) /\
  (forall v, m p = Some v -> pnode_value pm n = Ok v).
Proof using HP HT Hm Hw Pk.
  destruct (root_ok T pm t Pk) as (o & lo & Er & L & R). unfold proot_node. rewrite Er. cbn [bind]. exists (Some o).
  pose proof (pnode_path_ok p lo o t L R Hw) as G. destruct (find_prefix_node t p) as [n|] eqn:E.
  - destruct G as (q & lo' & -> & L' & R'). exists (Some q). split; auto. split; auto.
    pose proof (find_prefix_wf _ _ _ Hw E) as Hn.
    assert (Hp : forall s, m (p ++ s) = lookup n s) by (intros s; rewrite <- Hm; apply lookup_app; auto).
    assert (Hp0 : m p = nval n) by (rewrite <- (app_nil_r p), Hp; reflexivity).
    destruct (rep_head _ _ _ _ _ _ R') as (z & Ez & Sz & Es).
    split; [|split; [|split]].
    + split; [|discriminate]. intros _. destruct p as [|c p]; auto. right. pose proof (find_prefix_alive _ _ _ _ Hw E) as Ha.
      destruct (alive_has_key n Hn Ha) as (s & v & Hs). exists s. rewrite Hp. congruence.
    + cbn [pnode_has_value]. rewrite (rd_some pm _ _ Ez). cbn [bind]. eexists. split; [reflexivity|]. rewrite (slot_null T pm _ _ Sz), Hp0.
      destruct (nval n); cbn; split; congruence.
    + cbn [pnode_has_child]. rewrite (rd_some pm _ _ Es). cbn [bind]. eexists. split; [reflexivity|]. rewrite Z.ltb_lt. split.
      * destruct (nch n) as [|[c sub] cs] eqn:Ec; [cbn; lia|]. intros _.
        destruct (wf_child n O c sub Hn) as [Hws Has]; [rewrite Ec; auto|].
        destruct (alive_has_key sub Hws Has) as (s & v & Hs). exists c, s. rewrite Hp, lookup_cons, Ec. cbn. rewrite Z.eqb_refl. congruence.
      * intros (c & s & Hs). rewrite Hp, lookup_cons in Hs. destruct (nch n); [cbn in Hs; congruence|cbn [length]; lia].
    + intros v Hv. cbn [pnode_value]. rewrite (rd_some pm _ _ Ez). cbn [bind]. rewrite <- Hp0, Hv in Sz. destruct Sz as [_ Sz]. rewrite Sz. reflexivity.
  - rewrite G. exists None. split; auto. split; auto.
    assert (Hp : forall s, m (p ++ s) = None).
    { intros s. rewrite <- Hm. unfold lookup. assert (find_prefix_node t (p ++ s) = None) as ->; auto.
      clear -E. revert E. generalize t. induction p as [|c p IH]; cbn; [discriminate|].
      intros u. destruct (find_child c (nch u)) as [[]|]; auto. }
    assert (Hp0 : m p = None) by (rewrite <- (app_nil_r p); auto).
    split; [|split; [|split]].
    + split; [congruence|]. intros [->|[s Hs]]; [discriminate|]. rewrite Hp in Hs. congruence.
    + exists false. split; auto. split; congruence.
    + exists false. split; auto. split; [discriminate|]. intros (c & s & Hs). rewrite Hp in Hs. congruence.
    + intros v Hv. congruence.
Qed.
End MAP.
End BRIDGE.

(** ** Equality *)
Section EQ.
Context {V : Type}.
Variable T : ptraits.
Hypothesis HT : pt_ok T.
Variable veqb : V -> V -> bool.
Hypothesis veqb_ok : forall a b, veqb a b = true <-> a = b.

Lemma listing_eq (m1 m2 : content (V := V)) l1 l2 : listing m1 l1 -> listing m2 l2 -> (l1 = l2 <-> forall k, m1 k = m2 k).
Proof using Type.
  intros [S1 L1] [S2 L2]. split.
  - intros -> k. destruct (m1 k) as [v|] eqn:E1.
    + apply L1 in E1. apply L2 in E1. auto.
    + destruct (m2 k) as [v|] eqn:E2; auto. apply L2 in E2. apply L1 in E2. congruence.
  - intros E. apply sorted_ext; auto. intros [k v]. rewrite L1, L2, E. tauto.
Qed.

Lemma peq_loop_ok (pm1 pm2 : pmap V) t1 t2 o1 o2 pe : wf t1 -> wf t2 -> isim T pm1 o1 (tend t1) pe ->
  forall R1 R2 k1 v1 k2 v2 x1 x2 p1 p2 f, pos t1 [] k1 v1 R1 x1 -> pos t2 [] k2 v2 R2 x2 ->
  isim T pm1 o1 x1 p1 -> isim T pm2 o2 x2 p2 -> length R1 = length R2 -> (length R1 + 2 <= f)%nat ->
  exists b, peq_loop T veqb f pm1 pm2 p1 p2 pe = Ok b /\ (b = true <-> (k1, v1) :: R1 = (k2, v2) :: R2).
Proof using HT veqb_ok.
  intros W1 W2 Se. induction R1 as [|[a1 b1] R1 IH]; intros R2 k1 v1 k2 v2 x1 x2 p1 p2 f P1 P2 S1 S2 Hl Hf; (destruct f as [|f]; [lia|]); cbn [peq_loop];
    (rewrite (normal_end_eqb T pm1 o1 t1 [] x1 (tend t1) p1 pe); [|destruct P1 as (n & rest & _ & _ & -> & _); reflexivity|apply tend_at_end|exact S1|exact Se]);
    cbn [bind]; rewrite (pderef_ok T pm1 _ _ _ _ _ _ _ _ P1 S1), (pderef_ok T pm2 _ _ _ _ _ _ _ _ P2 S2); cbn [bind app];
    (destruct (key_eqb k1 k2 && veqb v1 v2) eqn:Eq; cbn [negb];
     [apply andb_true_iff in Eq as [Eq1 Eq2]; apply key_eqb_spec in Eq1; apply veqb_ok in Eq2; subst k2 v2
     |exists false; split; auto; split; [discriminate|]; intros E; injection E as -> -> _; rewrite key_eqb_refl in Eq;
      assert (veqb v2 v2 = true) as Ev by (apply veqb_ok; auto); rewrite Ev in Eq; discriminate]).
  - destruct R2; [|discriminate]. destruct (inc_spec _ _ _ _ _ _ W1 P1) as (x1' & E1 & X1). destruct (inc_spec _ _ _ _ _ _ W2 P2) as (x2' & E2 & X2).
    destruct (pinc_ok T HT pm1 _ _ _ _ _ _ _ _ P1 S1 _ E1) as (p1' & -> & S1'). destruct (pinc_ok T HT pm2 _ _ _ _ _ _ _ _ P2 S2 _ E2) as (p2' & -> & S2').
    cbn [bind]. destruct f as [|f]; [cbn in Hf; lia|]. cbn [peq_loop].
    rewrite (end_eqb T pm1 o1 t1 [] [] x1' (tend t1) p1' pe X1 (tend_at_end _) S1' Se). cbn [bind]. exists true. split; auto. split; auto.
  - destruct R2 as [|[a2 b2] R2]; [discriminate|]. destruct (inc_spec _ _ _ _ _ _ W1 P1) as (x1' & E1 & X1). destruct (inc_spec _ _ _ _ _ _ W2 P2) as (x2' & E2 & X2).
    destruct (pinc_ok T HT pm1 _ _ _ _ _ _ _ _ P1 S1 _ E1) as (p1' & -> & S1'). destruct (pinc_ok T HT pm2 _ _ _ _ _ _ _ _ P2 S2 _ E2) as (p2' & -> & S2').
    cbn [bind]. cbn [length] in *. destruct (IH R2 a1 b1 a2 b2 x1' x2' p1' p2' f X1 X2 S1' S2') as (b & -> & Hb); [lia|lia|].
    exists b. split; auto. rewrite Hb. split; [intros ->; auto|]. intros E; injection E as -> -> ->; auto.
Qed.

Lemma peq_ok pm1 pm2 m1 m2 t1 t2 : packed T pm1 m1 t1 -> packed T pm2 m2 t2 -> (m1 [] = None <-> m2 [] = None) ->
  exists b, peq T veqb pm1 pm2 = Ok b /\ (b = true <-> forall k, k <> [] -> m1 k = m2 k).
Proof using HT veqb_ok.
  intros H1 H2 Hr. pose proof H1 as (K1 & S1 & _). pose proof H2 as (K2 & S2 & _). pose proof S1 as [W1 L1]. pose proof S2 as [W2 L2].
  pose proof (centries_nonroot _ _ S1) as N1. pose proof (centries_nonroot _ _ S2) as N2.
  assert (Ho : length (own [] t1) = length (own [] t2)).
  { unfold own. rewrite <- (lookup_nil t1), <- (lookup_nil t2), L1, L2. destruct (m1 []), (m2 []); auto; exfalso; destruct Hr as [A B]; [discriminate B|discriminate A]; auto. }
  assert (HQ : (forall k, k <> [] -> m1 k = m2 k) <-> centries [] (nch t1) = centries [] (nch t2)).
  { rewrite (listing_eq _ _ _ _ N1 N2). split; intros H k.
    - rewrite !c_del_eqb. destruct k as [|c k]; [reflexivity|]. cbn [key_eqb]. apply H. discriminate.
    - intros Hk. specialize (H k). rewrite !c_del_eqb in H. destruct k; [congruence|]. exact H. }
  assert (HS : forall t : tnode V, count_values t = (length (own [] t) + length (centries [] (nch t)))%nat).
  { intros t. rewrite (count_entries []), entries_eq, app_length. reflexivity. }
  unfold peq. rewrite (size_ok T pm1 t1 K1), (size_ok T pm2 t2 K2), !HS, Ho.
  destruct (Nat.eqb_spec (length (own [] t2) + length (centries [] (nch t1))) (length (own [] t2) + length (centries [] (nch t2)))) as [El|El]; cbn [negb].
  2:{ exists false. split; auto. split; [discriminate|]. intros H. apply HQ in H. rewrite H in El. congruence. }
  destruct (pend_ok T pm1 t1 K1) as (o1 & e & Er1 & Ee & Se).
  destruct (nch t1) as [|y1 cs1] eqn:En1; destruct (nch t2) as [|y2 cs2] eqn:En2.
  - destruct (pbegin_leaf T pm1 t1 K1 En1) as (o & p1 & Er & -> & Sp1). rewrite Er1 in Er. injection Er as <-.
    destruct (pbegin_leaf T pm2 t2 K2 En2) as (o2 & p2 & Er2 & -> & Sp2). rewrite Ee. cbn [bind]. cbn [peq_loop].
    rewrite (end_eqb T pm1 o1 t1 [] [] (tend t1) (tend t1) p1 e) by (auto; apply tend_at_end). cbn [bind]. exists true. split; auto. rewrite HQ. split; auto.
  - exfalso. destruct (tbegin_gen t2 W2) as (s & v & R & x & Ec & _); [congruence|]. rewrite En2 in Ec. rewrite Ec in El. cbn in El. lia.
  - exfalso. destruct (tbegin_gen t1 W1) as (s & v & R & x & Ec & _); [congruence|]. rewrite En1 in Ec. rewrite Ec in El. cbn in El. lia.
  - rewrite <- En1, <- En2 in *. destruct (tbegin_gen t1 W1) as (s1 & v1 & R1 & x1 & Ec1 & Eb1 & P1); [congruence|].
    destruct (tbegin_gen t2 W2) as (s2 & v2 & R2 & x2 & Ec2 & Eb2 & P2); [congruence|].
    destruct (pbegin_ok T HT pm1 t1 K1 x1) as (o & p1 & Er & -> & Sp1); [congruence|auto|]. rewrite Er1 in Er. injection Er as <-.
    destruct (pbegin_ok T HT pm2 t2 K2 x2) as (o2 & p2 & Er2 & -> & Sp2); [congruence|auto|]. rewrite Ee. cbn [bind].
    rewrite Ec1, Ec2 in *. cbn [length] in *.
    destruct (peq_loop_ok pm1 pm2 t1 t2 o1 o2 e W1 W2 Se R1 R2 s1 v1 s2 v2 x1 x2 p1 p2 (S (S (length (own [] t2) + S (length R1))))) as (b & E & Hb); auto; [lia|lia|].
    exists b. split; [exact E|]. rewrite Hb, HQ. tauto.
Qed.
End EQ.

(** ** Streams for other types *)
Lemma load_other_kind {V V'} (F : serializer V) (G : serializer V') vs rest junk T' : svar G <> svar F ->
  load_state T' G junk (value_section F vs ++ rest) = Throw E_invalid_arg.
Proof.
  intros H. unfold load_state, load_values, value_section. rewrite <- !app_assoc.
  rewrite bv_read_app by apply le_bytes_length. rewrite firstn_exact by apply le_bytes_length.
  rewrite le_value_bytes by (destruct (svar F); change (256 ^ Z.of_nat 2) with (2 ^ 16); lia).
  destruct (svar F), (svar G); try congruence; reflexivity.
Qed.
Lemma load_other_size {V V'} (F : serializer V) (G : serializer V') vs rest junk T' : svar G = false -> svar F = false ->
  ssize G <> ssize F -> sizes_ok F -> Z.of_nat (length vs) < 2 ^ 32 -> (length vs <= length rest)%nat ->
  load_state T' G junk (value_section F vs ++ rest) = Throw E_invalid_arg.
Proof.
  intros HG HF HN HS Hc Hl. unfold load_state, load_values, value_section. rewrite HF, HG, <- !app_assoc.
  rewrite bv_read_app by apply le_bytes_length. rewrite firstn_exact by apply le_bytes_length.
  rewrite le_value_bytes by (change (256 ^ Z.of_nat 2) with (2 ^ 16); lia).
  change (negb (Bool.eqb (Z.odd 0) false)) with false. cbv iota.
  rewrite bv_read_app by apply le_bytes_length. rewrite firstn_exact by apply le_bytes_length.
  rewrite le_value_bytes by (change (256 ^ Z.of_nat 4) with (2 ^ 32); lia).
  match goal with |- context [Z.of_nat (length ?x) <? _] => replace (Z.of_nat (length x) <? Z.of_nat (length vs)) with false end.
  2:{ symmetry. apply Z.ltb_ge. rewrite !app_length. lia. }
  rewrite bv_read_app by apply le_bytes_length. rewrite firstn_exact by apply le_bytes_length.
  rewrite le_value_bytes by (change (256 ^ Z.of_nat 4) with (2 ^ 32); apply HS; auto).
  destruct (Z.eqb_spec (ssize F) (ssize G)); [congruence|]. reflexivity.
Qed.
