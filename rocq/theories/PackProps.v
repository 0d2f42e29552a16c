(** Properties of packed_trie_map (C24-C26, C65-C69). *)
From Coq Require Import List ZArith Lia Bool Arith Sorted.
From Verif Require Import Base TrieModel TrieSpec TrieProps PackModel PackSpec PackSave PackBridge.
Import ListNotations.
Open Scope Z_scope.

Section PROPS.
Context {V : Type}.
Variable T : ptraits.
Hypothesis HT : pt_ok T.

(** ** C24: packing preserves the content *)

(** a trie whose keys fit can be packed *)
Theorem C24_pack_total os (m : content (V := V)) l : after_calls os m -> listing m l -> fits T l ->
  exists pm, pack T (trun os) = Ok pm /\ made T pm m.
Proof.
  intros H L F. destruct (pack_total T HT os m l H L F) as (pm & E & _). exists pm. split; auto. eapply M_trie; eauto.
Qed.

(** a strictly increasing table without zero units can be packed *)
Theorem C24_table_total (m : content (V := V)) l : listing m l -> zero_free l -> fits T l ->
  exists pm, pack_table T l = Ok pm /\ made T pm m.
Proof.
  intros L Z F. destruct (pack_table_total T HT l m L Z F) as (pm & t & E & _). exists pm. split; auto. eapply M_table; eauto.
Qed.

(** find gives the entry of a stored key, and end() for every other key *)
Theorem C24_find (pm : pmap V) m k : made T pm m ->
  exists x e, pfind T pm k = Ok x /\ pend T pm = Ok e /\
    match m k with
    | Some v => piter_eqb x e = Ok false /\ piter_deref pm x = Ok (k, v)
    | None => piter_eqb x e = Ok true
    end.
Proof.
  intros H. destruct (made_packed T HT pm m H) as (t & P). destruct (m k) as [v|] eqn:E.
  - destruct (pfind_find T HT pm m t P k v E) as (x & e & H1 & H2 & H3 & H4). eauto 10.
  - destruct (pfind_none T HT pm m t P k E) as (x & e & H1 & H2 & H3). eauto 10.
Qed.

(** size() and empty() *)
Theorem C24_size (pm : pmap V) m l : made T pm m -> listing m l ->
  psize pm = length l /\ (pempty pm = true <-> l = []).
Proof.
  intros H L. destruct (made_packed T HT pm m H) as (t & P).
  pose proof (packed_size T pm m t P) as E. rewrite <- (listing_unique _ _ _ (proj1 (proj2 P)) L) in E.
  split; [exact E|]. unfold pempty. destruct (store pm), l; split; auto; discriminate.
Qed.

(** prefix_search lists the entries with the prefix in order *)
Theorem C24_prefix_search (pm : pmap V) m p : made T pm m ->
  exists r first last l, pprefix_search T pm p = Ok r /\ prbegin T pm r = Ok first /\ prend T pm r = Ok last /\
    listing (c_prefix p m) l /\ forall fuel, (length l + 2 <= fuel)%nat -> pwalk T fuel pm first last = Ok l.
Proof. intros H. destruct (made_packed T HT pm m H) as (t & P). apply (pprefix_walk T HT pm m t P). Qed.

(** iteration from begin() to end() lists the entries in order, all but that of
    the empty key *)
Theorem C24_without_empty_key (pm : pmap V) m : made T pm m ->
  exists first last l, pbegin T pm = Ok first /\ pend T pm = Ok last /\ listing (c_del m []) l /\
    forall fuel, (length l + 2 <= fuel)%nat -> pwalk T fuel pm first last = Ok l.
Proof. intros H. destruct (made_packed T HT pm m H) as (t & P). apply (pbegin_walk T HT pm m t P). Qed.

(** Full statement: iteration lists the content.  Proved for maps without a
    value for the empty key; see C24_iteration_refuted for the others. *)
Theorem C24_iteration_partial (pm : pmap V) m : made T pm m -> m [] = None ->
  exists first last l, pbegin T pm = Ok first /\ pend T pm = Ok last /\ listing m l /\
    forall fuel, (length l + 2 <= fuel)%nat -> pwalk T fuel pm first last = Ok l.
Proof.
  intros H H0. destruct (C24_without_empty_key pm m H) as (f & e & l & E1 & E2 & [Ls Lk] & W). exists f, e, l.
  split; auto. split; auto. split; auto. split; auto. intros k v. rewrite Lk. unfold c_del.
  destruct (list_eq_dec Z.eq_dec [] k) as [<-|]; [rewrite H0; split; discriminate|tauto].
Qed.

(** ++ goes from the entry of a stored key to that of the next one *)
Theorem C24_next (pm : pmap V) m l A k v B : made T pm m -> listing m l -> l = A ++ (k, v) :: B ->
  exists x1 x2 e, pfind T pm k = Ok x1 /\ piter_inc T pm x1 = Ok x2 /\ pend T pm = Ok e /\
    match B with
    | (k2, v2) :: _ => piter_deref pm x2 = Ok (k2, v2) /\ piter_eqb x2 e = Ok false
    | [] => piter_eqb x2 e = Ok true
    end.
Proof. intros H L E. destruct (made_packed T HT pm m H) as (t & P). exact (pinc_next T HT pm m t P l A k v B L E). Qed.

(** ** C65: stepping back *)

(** Full statement: -- goes from the entry of a stored key to that of the
    previous one.  Proved for keys that no stored key extends; see
    C65_back_refuted. *)
Theorem C65_back_partial (pm : pmap V) m l A k1 v1 k2 v2 B : made T pm m -> listing m l -> l = A ++ (k1, v1) :: (k2, v2) :: B ->
  (forall c s, m (k2 ++ c :: s) = None) ->
  exists x2 x1, pfind T pm k2 = Ok x2 /\ piter_dec T pm x2 = Ok x1 /\ piter_deref pm x1 = Ok (k1, v1).
Proof.
  intros H L E Hx. destruct (made_packed T HT pm m H) as (t & P).
  assert (Hk : m k2 = Some v2) by (apply (proj2 L); rewrite E; apply in_or_app; right; right; left; auto).
  destruct (pfind_stored T HT pm m t P k2 v2 Hk) as (o & x & R & px & e & _ & Ps & Ef & S & _).
  assert (ER : R = B) by (apply (pos_split T HT pm m t P l (A ++ [(k1, v1)]) k2 v2 B R x L); [rewrite E, <- app_assoc; auto|exact Ps]). subst R.
  pose proof (listing_unique _ _ _ (proj1 (proj2 P)) L) as El.
  destruct (step_back T HT pm m t P o A k1 v1 k2 v2 B x px) as (x' & px' & Ed & X' & S'); auto; [congruence|].
  exists px, px'. split; auto. split; auto. apply (PackSim.pderef_ok T pm _ _ _ _ _ _ _ _ X' S').
Qed.

(** Full statement: walking back from end() gives the entries in reverse order.
    Proved for maps in which no key is a prefix of another; see
    C65_walk_back_refuted. *)
Theorem C65_walk_back_partial (pm : pmap V) m l : made T pm m -> listing m l -> m [] = None ->
  (forall k c s, m k <> None -> m (k ++ c :: s) = None) ->
  exists e, pend T pm = Ok e /\ pwalk_back T (length l) pm e = Ok (rev l).
Proof. intros H L H0 Hp. destruct (made_packed T HT pm m H) as (t & P). exact (pback_all T HT pm m t P l L H0 Hp). Qed.

(** ** C66: node traversal *)
Theorem C66_nodes (pm : pmap V) m p : made T pm m ->
  exists root n, proot_node pm = Ok root /\ pnode_path T pm root p = Ok n /\
    (n <> None <-> p = [] \/ exists s, m (p ++ s) <> None) /\
    (exists b, pnode_has_value T pm n = Ok b /\ (b = true <-> m p <> None)) /\
    (exists b, pnode_has_child pm n = Ok b /\ (b = true <-> exists c s, m (p ++ c :: s) <> None)) /\
    (forall v, m p = Some v -> pnode_value pm n = Ok v).
Proof. intros H. destruct (made_packed T HT pm m H) as (t & P). exact (pnodes T HT pm m t P p). Qed.

(** ** C25: equality *)
Section EQ.
Variable veqb : V -> V -> bool.
Hypothesis veqb_ok : forall a b, veqb a b = true <-> a = b.

(** Full statement: operator== is true exactly when the contents are the same.
    Proved for maps which both have, or both do not have, a value for the empty
    key; that value is not compared. *)
Theorem C25_equal_partial (pm1 pm2 : pmap V) m1 m2 : made T pm1 m1 -> made T pm2 m2 -> (m1 [] = None <-> m2 [] = None) ->
  exists b, peq T veqb pm1 pm2 = Ok b /\ (b = true <-> forall k, k <> [] -> m1 k = m2 k).
Proof.
  intros H1 H2 H0. destruct (made_packed T HT pm1 m1 H1) as (t1 & P1). destruct (made_packed T HT pm2 m2 H2) as (t2 & P2).
  exact (peq_ok T HT veqb veqb_ok pm1 pm2 m1 m2 t1 t2 P1 P2 H0).
Qed.
Theorem C25_equal_no_empty_key_partial (pm1 pm2 : pmap V) m1 m2 : made T pm1 m1 -> made T pm2 m2 -> m1 [] = m2 [] ->
  exists b, peq T veqb pm1 pm2 = Ok b /\ (b = true <-> forall k, m1 k = m2 k).
Proof.
  intros H1 H2 H0. destruct (C25_equal_partial pm1 pm2 m1 m2 H1 H2) as (b & E & Hb); [rewrite H0; tauto|].
  exists b. split; auto. rewrite Hb. split; intros H k; [|auto]. destruct k as [|c k]; [exact H0|apply H; discriminate].
Qed.
End EQ.

(** ** C26: saving and loading *)

(** what save_state writes, load_state turns into the very same buffer and
    values, whatever the uninitialised bytes are *)
Theorem C26_roundtrip (pm : pmap V) m F : made T pm m -> saveable F m ->
  exists bytes, save_state T F pm = Ok bytes /\ forall junk, load_state T F junk bytes = Ok pm.
Proof.
  intros H S. destruct (made_packed T HT pm m H) as (t & P). destruct (packed_saves T HT F pm m t P S) as (vs & _ & E & L).
  eexists. split; [exact E|]. intros junk. rewrite L, !Z.eqb_refl by auto. reflexivity.
Qed.
(** and the loaded map answers every call as the saved one *)
Theorem C26_content (pm : pmap V) m F bytes junk : made T pm m -> saveable F m -> save_state T F pm = Ok bytes ->
  exists pm', load_state T F junk bytes = Ok pm' /\ made T pm' m.
Proof.
  intros H S E. destruct (C26_roundtrip pm m F H S) as (b & E' & L). rewrite E in E'. injection E' as <-.
  exists pm. split; auto.
Qed.
(** a stream written with the other kind of serializer is rejected *)
Theorem C26_other_kind (pm : pmap V) m F (V' : Type) (G : serializer V') bytes junk T' : made T pm m -> saveable F m -> save_state T F pm = Ok bytes ->
  svar G <> svar F -> load_state T' G junk bytes = Throw E_invalid_arg.
Proof.
  intros H S E HG. destruct (made_packed T HT pm m H) as (t & P). destruct (packed_saves T HT F pm m t P S) as (vs & Ev & E' & _).
  rewrite E in E'. injection E' as ->. subst vs. apply load_other_kind. auto.
Qed.
(** so is one with values of another fixed size *)
Theorem C26_other_size (pm : pmap V) m F (V' : Type) (G : serializer V') bytes junk T' : made T pm m -> saveable F m -> save_state T F pm = Ok bytes ->
  svar G = false -> svar F = false -> ssize G <> ssize F -> load_state T' G junk bytes = Throw E_invalid_arg.
Proof.
  intros H S E HG HF HN. destruct (made_packed T HT pm m H) as (t & P). destruct (packed_saves T HT F pm m t P S) as (vs & Ev & E' & _).
  pose proof (packed_size T pm m t P) as Hz. pose proof (packed_cells T HT pm m t P) as [_ Hc].
  destruct S as (Hs & _ & Hn). specialize (Hn _ (listing_entries _ _ (proj1 (proj2 P)))).
  rewrite E in E'. injection E' as ->. subst vs. apply load_other_size; auto; [rewrite Hz; exact Hn|].
  assert (length (pk pm) <= length (blob_section T 255 (Z.of_nat (pbytes T)) (pk pm) 255))%nat by (apply blob_length; destruct HT; lia). lia.
Qed.
(** so is one with cells of another width *)
Theorem C26_other_width (pm : pmap V) m F bytes junk T' : made T pm m -> saveable F m -> save_state T F pm = Ok bytes ->
  pbytes T' <> pbytes T -> load_state T' F junk bytes = Throw E_invalid_arg.
Proof.
  intros H S E HN. destruct (made_packed T HT pm m H) as (t & P). destruct (packed_saves T HT F pm m t P S) as (vs & Ev & E' & L).
  rewrite E in E'. injection E' as ->. rewrite L by (right; right; lia). change (negb (255 =? 255)) with false. cbv iota.
  destruct (Z.eqb_spec (Z.of_nat (pbytes T)) (Z.of_nat (pbytes T'))); [lia|reflexivity].
Qed.
(** the two check bytes: changing either of them is detected *)
Theorem C26_check_bytes (pm : pmap V) m F bytes : made T pm m -> saveable F m -> save_state T F pm = Ok bytes ->
  exists a b, bytes = a ++ 255 :: b ++ [255] /\
    forall x junk, x <> 255 -> load_state T F junk (a ++ x :: b ++ [255]) = Throw E_invalid_arg /\
      load_state T F junk (a ++ 255 :: b ++ [x]) = Throw E_invalid_arg.
Proof.
  intros H S E. destruct (made_packed T HT pm m H) as (t & P). destruct (packed_saves T HT F pm m t P S) as (vs & Ev & E' & L).
  rewrite E in E'. injection E' as ->. exists vs, ([Z.of_nat (pbytes T)] ++ le_bytes 8 (Z.of_nat (length (pk pm))) ++ flat_map (le_bytes (pbytes T)) (pk pm)).
  assert (EB : forall x y, vs ++ x :: ([Z.of_nat (pbytes T)] ++ le_bytes 8 (Z.of_nat (length (pk pm))) ++ flat_map (le_bytes (pbytes T)) (pk pm)) ++ [y]
     = vs ++ blob_section T x (Z.of_nat (pbytes T)) (pk pm) y).
  { intros x y. unfold blob_section. rewrite <- !app_assoc. reflexivity. }
  split; [rewrite EB; reflexivity|]. intros x junk Hx. rewrite !EB, !L by auto.
  apply Z.eqb_neq in Hx. rewrite Hx, !Z.eqb_refl. split; reflexivity.
Qed.

(** ** C67: copying and moving *)
(** copying never fails on such a map, and the copy has the same content *)
Theorem C67_copy (pm : pmap V) m : made T pm m -> exists pm', pcopy T pm = Ok pm' /\ made T pm' m.
Proof.
  intros H. destruct (made_packed T HT pm m H) as (t & P). destruct (PackCopy.pcopy_ok T pm t (proj1 P)) as (pm' & E & _).
  exists pm'. split; auto. eapply M_copy; eauto.
Qed.
(** the target of a move has the content of the source, and the source is left
    as a default-constructed map *)
Theorem C67_move (pm : pmap V) m : made T pm m -> made T (fst (pmove pm)) m /\ snd (pmove pm) = pdefault.
Proof. intros H. split; [apply M_move; auto|reflexivity]. Qed.

(** the default-constructed map is empty: no key is found, prefix searches and
    iteration give nothing *)
Theorem C67_default (p : list Z) : psize (pdefault (V := V)) = O /\ pempty (pdefault (V := V)) = true /\
  (exists e, pend (V := V) T pdefault = Ok e /\ pfind (V := V) T pdefault p = Ok e /\ pbegin (V := V) T pdefault = Ok e /\
     piter_eqb e e = Ok true) /\
  exists r x, pprefix_search (V := V) T pdefault p = Ok r /\ prbegin T (pdefault (V := V)) r = Ok x /\ prend T (pdefault (V := V)) r = Ok x /\
     piter_eqb x x = Ok true.
Proof.
  repeat split; try reflexivity.
  - eexists. split; [reflexivity|]. split; [reflexivity|]. split; reflexivity.
  - eexists _, _. split; [reflexivity|]. split; [reflexivity|]. split; reflexivity.
Qed.
End PROPS.

(** ** Concrete maps *)

(** char keys and 32-bit cells, the default traits *)
Definition T0 : ptraits := PT 4 8 true.
Lemma T0_ok : pt_ok T0.
Proof. unfold pt_ok, T0; cbn; lia. Qed.
(** the packed map of a history of calls *)
Definition packed_of (os : list (top Z)) : pmap Z := match pack T0 (trun os) with Ok pm => pm | _ => pdefault end.
Lemma packed_made os m : after_calls os m ->
  Forall (fun e => Forall (fun u => -128 <= u < 128) (fst e)) (TrieProofs2.entries [] (trun os)) ->
  (key_units (TrieProofs2.entries [] (trun os)) < 2000)%nat -> made T0 (packed_of os) m.
Proof.
  intros H H1 H2. pose proof (listing_entries _ _ (calls_show _ _ H)) as L.
  assert (F : fits T0 (TrieProofs2.entries [] (trun os))).
  { split; [exact H1|]. change (2 ^ (8 * Z.of_nat (pbytes T0))) with 4294967296. lia. }
  destruct (C24_pack_total T0 T0_ok os m _ H L F) as (pm & E & M). unfold packed_of. rewrite E. exact M.
Qed.
Ltac mk_made := apply packed_made; [assumption|vm_compute; repeat constructor; discriminate|vm_compute; lia].

(** a map with nested keys and negative units *)
Definition ex_calls : list (top Z) :=
  [Insert [97; 98; 99] 1; Insert [97] 2; Insert [-23; 5] 4; Insert [98; 97] 5; Insert [120] 6; Erase [120]].
Example ex_made : exists m l, made T0 (packed_of ex_calls) m /\ listing m l /\ length l = 4%nat /\
  m [97] = Some 2 /\ m [97; 98] = None /\ m [-23; 5] = Some 4 /\ m [] = None.
Proof.
  destruct (C19_total ex_calls) as [m H]. pose proof (calls_show _ _ H) as S. pose proof S as [_ E].
  eexists m, _. split; [mk_made|]. split; [exact (listing_entries _ _ S)|]. split; [reflexivity|]. rewrite <- !E. repeat split; reflexivity.
Qed.
(** the hypotheses of C24_table_total *)
Example ex_table : exists m : content (V := Z), let l := [([97], 1); ([97; 98], 2); ([98; 99; 100], 3)] in
  listing m l /\ zero_free l /\ fits T0 l.
Proof.
  destruct (C19_total [Insert [97] 1; Insert [97; 98] 2; Insert [98; 99; 100] 3]) as [m H].
  pose proof (listing_entries _ _ (calls_show _ _ H)) as L. exists m. split; [exact L|].
  split; [repeat constructor; discriminate|]. split; [repeat constructor; discriminate|]. vm_compute. discriminate.
Qed.
(** the entries with a prefix *)
Example ex_prefix : exists r x y, pprefix_search T0 (packed_of ex_calls) [97] = Ok r /\ prbegin T0 (packed_of ex_calls) r = Ok x /\
  prend T0 (packed_of ex_calls) r = Ok y /\ pwalk T0 9 (packed_of ex_calls) x y = Ok [([97], 2); ([97; 98; 99], 1)].
Proof. eexists _, _, _. repeat (split; [vm_compute; reflexivity|]); vm_compute; reflexivity. Qed.
(** a map to walk back *)
Definition ex_flat : list (top Z) := [Insert [98; 97] 1; Insert [98; 99] 2; Insert [97] 3].
Example ex_back : exists m l e, made T0 (packed_of ex_flat) m /\ listing m l /\ m [] = None /\
  (forall k c s, m k <> None -> m (k ++ c :: s) = None) /\
  pend T0 (packed_of ex_flat) = Ok e /\ pwalk_back T0 3 (packed_of ex_flat) e = Ok [([98; 99], 2); ([98; 97], 1); ([97], 3)].
Proof.
  destruct (C19_total ex_flat) as [m H]. pose proof (calls_show _ _ H) as S. pose proof S as [_ E].
  eexists m, _, _. split; [mk_made|]. split; [exact (listing_entries _ _ S)|]. split; [rewrite <- E; reflexivity|].
  split; [|split; [vm_compute; reflexivity|vm_compute; reflexivity]].
  intros k c s Hk. pose proof (listing_entries _ _ S) as [_ L].
  destruct (m k) as [v|] eqn:Ek; [|congruence]. destruct (m (k ++ c :: s)) as [w|] eqn:Ew; auto. exfalso.
  apply L in Ek. apply L in Ew. vm_compute in Ek, Ew.
  repeat (destruct Ek as [Ek|Ek]; [injection Ek as <- <-|]); try destruct Ek;
    repeat (destruct Ew as [Ew|Ew]; [try discriminate Ew|]); try destruct Ew.
Qed.
(** two histories with the same content *)
Example ex_equal : exists m1 m2, made T0 (packed_of ex_calls) m1 /\
  made T0 (packed_of (ex_calls ++ [Insert [1] 1; Erase [1]])) m2 /\ m1 [] = m2 [] /\
  peq T0 Z.eqb (packed_of ex_calls) (packed_of (ex_calls ++ [Insert [1] 1; Erase [1]])) = Ok true /\
  peq T0 Z.eqb (packed_of ex_calls) (packed_of (ex_calls ++ [Insert [97] 1])) = Ok false.
Proof.
  destruct (C19_total ex_calls) as [m1 H1]. destruct (C19_total (ex_calls ++ [Insert [1] 1; Erase [1]])) as [m2 H2].
  pose proof (calls_show _ _ H1) as [_ E1]. pose proof (calls_show _ _ H2) as [_ E2].
  exists m1, m2. split; [mk_made|]. split; [mk_made|]. split; [rewrite <- E1, <- E2; reflexivity|]. split; [vm_compute; reflexivity|vm_compute; reflexivity].
Qed.

(** *** serializers *)
Theorem C26_numeric size v : 0 <= v < 256 ^ Z.of_nat size -> handles (numeric_serializer size) v.
Proof. apply numeric_handles. Qed.
Theorem C26_string v : Forall (fun x => 0 <= x < 256) v -> Z.of_nat (length v) < 2 ^ 32 -> handles string_serializer v.
Proof. apply string_handles. Qed.
Theorem C26_numeric_sequence size v : (1 <= size)%nat -> Forall (fun x => 0 <= x < 256 ^ Z.of_nat size) v ->
  Z.of_nat (size * length v) < 2 ^ 32 -> handles (numeric_seq_serializer size) v.
Proof. apply numeric_seq_handles. Qed.

(** a map of strings that can be saved *)
Definition ex_strings : list (top (list Z)) := [Insert [97; 98] [1; 2; 255]; Insert [97] []; Insert [99] [7]].
Example ex_saveable : exists m pm, made T0 pm m /\ saveable string_serializer m /\
  exists bytes, save_state T0 string_serializer pm = Ok bytes /\ load_state T0 string_serializer [9; 8; 7; 6; 5; 4; 3; 2] bytes = Ok pm /\
    load_state (PT 2 8 true) string_serializer [] bytes = Throw E_invalid_arg.
Proof.
  destruct (C19_total ex_strings) as [m H]. pose proof (calls_show _ _ H) as S. pose proof (listing_entries _ _ S) as L.
  destruct (C24_pack_total T0 T0_ok ex_strings m _ H L) as (pm & E & M).
  { split; [vm_compute; repeat constructor; discriminate|vm_compute; discriminate]. }
  exists m, pm. split; auto. split.
  - split; [discriminate|]. split.
    + intros k v Hk. apply L in Hk. vm_compute in Hk.
      repeat (destruct Hk as [Hk|Hk]; [injection Hk as <- <-; apply C26_string; [repeat constructor; lia|vm_compute; reflexivity]|]). destruct Hk.
    + intros l' L'. rewrite (listing_unique _ _ _ S L'). vm_compute. reflexivity.
  - vm_compute in E. injection E as <-. eexists. split; [vm_compute; reflexivity|]. split; [vm_compute; reflexivity|vm_compute; reflexivity].
Qed.

(** ** What does not hold *)

(** C24: iteration does not list the empty key *)
Theorem C24_iteration_refuted : exists m first last, made T0 (packed_of [Insert [] 1; Insert [97] 2]) m /\ m [] = Some 1 /\
  pbegin T0 (packed_of [Insert [] 1; Insert [97] 2]) = Ok first /\ pend T0 (packed_of [Insert [] 1; Insert [97] 2]) = Ok last /\
  pwalk T0 9 (packed_of [Insert [] 1; Insert [97] 2]) first last = Ok [([97], 2)].
Proof.
  destruct (C19_total [Insert [] 1; Insert [97] 2]) as [m H]. pose proof (calls_show _ _ H) as [_ E].
  eexists m, _, _. split; [mk_made|]. split; [rewrite <- E; reflexivity|]. repeat (split; [vm_compute; reflexivity|]); vm_compute; reflexivity.
Qed.

(** strict order of keys as unsigned bytes *)
Definition byte_lt (a b : list Z) : Prop := klt (map (fun u => u mod 256) a) (map (fun u => u mod 256) b).
(** what find reports: the entry, or none for end() *)
Definition find_entry {V} T (pm : res (pmap V)) (k : list Z) : res (option (list Z * V)) :=
  let* m := pm in
  let* x := pfind T m k in
  let* e := pend T m in
  let* b := piter_eqb x e in
  if b then Ok None else let* a := piter_deref m x in Ok (Some a).

(** C24: a table in the order of memcmp and std::string, with bytes above 127 in
    signed chars: a key of the table is not found *)
Theorem C24_byte_order_refuted : let l := [([97], 1); ([-23], 2); ([-22], 3)] in
  StronglySorted byte_lt (map fst l) /\ zero_free l /\ fits T0 l /\ find_entry T0 (pack_table T0 l) [97] = Ok None.
Proof.
  cbv zeta. split; [|split; [|split]].
  - repeat constructor; unfold byte_lt; cbn; left; reflexivity.
  - repeat constructor; discriminate.
  - split; [repeat constructor; discriminate|vm_compute; discriminate].
  - vm_compute. reflexivity.
Qed.
(** C24: a table with a zero unit loses the key *)
Theorem C24_zero_unit_refuted : exists m, let l := [([0], 1); ([1], 2)] in
  listing m l /\ fits T0 l /\ find_entry T0 (pack_table T0 l) [0] = Ok None.
Proof.
  destruct (C19_total [Insert [0] 1; Insert [1] 2]) as [m H]. exists m.
  split; [exact (listing_entries _ _ (calls_show _ _ H))|]. split; [split; [repeat constructor; discriminate|vm_compute; discriminate]|vm_compute; reflexivity].
Qed.
(** C24: with 8-bit cells, which are said to hold up to 254 values, a single key
    of 100 units is lost without an exception *)
Theorem C24_capacity_refuted : let T := PT 1 8 true in
  pt_ok T /\ find_entry T (pack T (trun [Insert (repeat 97 100) 1%nat])) (repeat 97 100) = Ok None.
Proof. cbv zeta. split; [unfold pt_ok; cbn; lia|vm_compute; reflexivity]. Qed.

(** C25: the value of the empty key is not compared, and a map whose only key
    is the empty one equals any other map with one key, in one direction; in
    the other direction the comparison is undefined *)
Theorem C25_equal_refuted : exists m1 m2 m3,
  let p1 := packed_of [Insert [] 1] in let p2 := packed_of [Insert [] 2] in let p3 := packed_of [Insert [97] 1] in
  made T0 p1 m1 /\ made T0 p2 m2 /\ made T0 p3 m3 /\
  (m1 [] = Some 1 /\ m2 [] = Some 2 /\ m3 [] = None /\ m1 [97] = None /\ m3 [97] = Some 1) /\
  peq T0 Z.eqb p1 p2 = Ok true /\ peq T0 Z.eqb p1 p3 = Ok true /\ peq T0 Z.eqb p3 p1 = Undef.
Proof.
  destruct (C19_total [Insert [] 1]) as [m1 H1]. destruct (C19_total [Insert [] 2]) as [m2 H2]. destruct (C19_total [Insert [97] 1]) as [m3 H3].
  pose proof (calls_show _ _ H1) as [_ E1]. pose proof (calls_show _ _ H2) as [_ E2]. pose proof (calls_show _ _ H3) as [_ E3].
  exists m1, m2, m3. cbv zeta. split; [mk_made|]. split; [mk_made|]. split; [mk_made|]. split; [rewrite <- !E1, <- !E2, <- !E3; repeat split; reflexivity|].
  repeat (split; [vm_compute; reflexivity|]); vm_compute; reflexivity.
Qed.

(** the map of one entry and the stream saved from it *)
Definition ex_num : pmap Z := match pack T0 (trun [Insert [97] 7; Insert [98] 9]) with Ok pm => pm | _ => pdefault end.
Definition ex_stream : list Z := match save_state T0 (numeric_serializer 4) ex_num with Ok b => b | _ => [] end.
(** C26: loading a stream that ends within the values never returns *)
Theorem C26_truncated_refuted : load_state T0 (numeric_serializer 4) [] ex_stream = Ok ex_num /\
  load_state T0 (numeric_serializer 4) [] (firstn 13 ex_stream) = Undef.
Proof. split; [vm_compute; reflexivity|vm_compute; reflexivity]. Qed.
(** C69: a load that throws has already replaced the values: here the target
    map ends with the old keys and a new value, or with a key whose value does
    not exist *)
Definition ex_broken : list Z := removelast ex_stream ++ [254].
Theorem C69_failed_load_refuted : exists m old, made T0 old m /\ m [97] = Some 1 /\
  load_state T0 (numeric_serializer 4) [] ex_broken = Throw E_invalid_arg /\
  find_entry T0 (Ok (load_left (numeric_serializer 4) [] old ex_broken)) [97] = Ok (Some ([97], 7)).
Proof.
  destruct (C19_total [Insert [97] 1]) as [m H]. pose proof (calls_show _ _ H) as S. pose proof S as [_ E].
  destruct (C24_pack_total T0 T0_ok _ m _ H (listing_entries _ _ S)) as (pm & Ep & M).
  { split; [vm_compute; repeat constructor; discriminate|vm_compute; discriminate]. }
  exists m, pm. split; auto. split; [rewrite <- E; reflexivity|]. vm_compute in Ep. injection Ep as <-.
  split; [vm_compute; reflexivity|vm_compute; reflexivity].
Qed.
(** C69: what does hold: a stream rejected for its kind or value size leaves the
    map as it was *)
Theorem C69_failed_load_partial {V} (F : serializer V) junk old s e : load_values F junk s = Throw e -> load_left F junk old s = old.
Proof. intros H. unfold load_left. rewrite H. reflexivity. Qed.
Example ex_rejected : load_values (numeric_serializer 2) [] ex_stream = Throw E_invalid_arg.
Proof. vm_compute. reflexivity. Qed.

(** C65: -- from a key that others extend can skip an entry *)
Definition ex_nested : list (top Z) := [Insert [120] 1; Insert [120; 97] 2; Insert [120; 98] 3; Insert [120; 98; 99] 4].
Theorem C65_back_refuted : exists m l x y, made T0 (packed_of ex_nested) m /\ listing m l /\
  l = [([120], 1); ([120; 97], 2); ([120; 98], 3); ([120; 98; 99], 4)] /\
  pfind T0 (packed_of ex_nested) [120; 98] = Ok x /\ piter_dec T0 (packed_of ex_nested) x = Ok y /\
  piter_deref (packed_of ex_nested) y = Ok ([120], 1).
Proof.
  destruct (C19_total ex_nested) as [m H]. eexists m, _, _, _. split; [mk_made|].
  split; [apply listing_entries; apply calls_show; exact H|]. repeat (split; [vm_compute; reflexivity|]). vm_compute; reflexivity.
Qed.
Theorem C65_walk_back_refuted : exists m e, made T0 (packed_of ex_nested) m /\ pend T0 (packed_of ex_nested) = Ok e /\
  pwalk_back T0 3 (packed_of ex_nested) e = Ok [([120; 98; 99], 4); ([120; 98], 3); ([120], 1)].
Proof.
  destruct (C19_total ex_nested) as [m H]. eexists m, _. split; [mk_made|]. repeat (split; [vm_compute; reflexivity|]). vm_compute; reflexivity.
Qed.

(** With the empty key stored -- from end() shows that key instead of the last one *)
Definition ex_with_empty : list (top Z) := [Insert [] 1; Insert [120] 2].
Theorem C65_end_refuted : exists m l e x, made T0 (packed_of ex_with_empty) m /\ listing m l /\ l = [([], 1); ([120], 2)] /\
  pend T0 (packed_of ex_with_empty) = Ok e /\ piter_dec T0 (packed_of ex_with_empty) e = Ok x /\
  piter_deref (packed_of ex_with_empty) x = Ok ([], 1).
Proof.
  destruct (C19_total ex_with_empty) as [m H]. eexists m, _, _, _. split; [mk_made|].
  split; [apply listing_entries; apply calls_show; exact H|]. repeat (split; [vm_compute; reflexivity|]). vm_compute; reflexivity.
Qed.

(** C67: the root node of a default-constructed map claims to have a value,
    reading that value is undefined, and so is copying the map *)
Theorem C67_default_refuted {V} : exists root, proot_node (pdefault (V := V)) = Ok root /\
  pnode_has_value T0 (pdefault (V := V)) root = Ok true /\ pnode_value (pdefault (V := V)) root = Undef /\
  pcopy T0 (pdefault (V := V)) = Undef.
Proof. eexists. split; [reflexivity|]. repeat split; reflexivity. Qed.

(** C68: search results that were copied or assigned have no values *)
Theorem C68_copied_results_refuted : exists m r x, let pm := packed_of ex_calls in
  made T0 pm m /\ pprefix_search T0 pm [97] = Ok r /\ prbegin T0 pm (presults_copy r) = Ok x /\ piter_deref pm x = Undef.
Proof.
  destruct (C19_total ex_calls) as [m H]. eexists m, _, _. cbv zeta. split; [mk_made|]. repeat (split; [vm_compute; reflexivity|]); vm_compute; reflexivity.
Qed.

(** One query for all the theorems of this file. *)
Definition PackProps_theorems :=
  (@C24_pack_total, @C24_table_total, @C24_find, @C24_size,
   @C24_prefix_search, @C24_without_empty_key, @C24_iteration_partial, @C24_next,
   @C65_back_partial, @C65_walk_back_partial, @C66_nodes, @C25_equal_partial,
   @C25_equal_no_empty_key_partial, @C26_roundtrip, @C26_content, @C26_other_kind,
   @C26_other_size, @C26_other_width, @C26_check_bytes, @C67_copy,
   @C67_move, @C67_default, @C26_numeric, @C26_string,
   @C26_numeric_sequence, @C24_iteration_refuted, @C24_byte_order_refuted, @C24_zero_unit_refuted,
   @C24_capacity_refuted, @C25_equal_refuted, @C26_truncated_refuted, @C69_failed_load_refuted,
   @C69_failed_load_partial, @C65_back_refuted, @C65_walk_back_refuted, @C65_end_refuted, @C67_default_refuted,
   @C68_copied_results_refuted).
Print Assumptions PackProps_theorems.
