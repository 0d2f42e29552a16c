(** multi_type_vector: swap of ranges of two containers. *)
From Coq Require Import List ZArith Lia Bool.
From Verif Require Import Base MtvModel MtvXfer MtvProofs MtvTac MtvWrap MtvXferMerge MtvXferHole MtvXferSteps MtvXferProofs MtvSwapParts.
Import ListNotations.

Section P.
Set Default Proof Using "Type".
Context {V : Type}.
Variable cat : V -> nat.
Variable managed : nat -> bool.
Notation eblk := (@eblk V).
Notation blk := (@blk V).
Notation st := (@st V).

(** A slot with a copy of values of the other container. *)
Lemma slot_in (s0 s : st) Q T a len (e : eblk) so :
  hole cat s0 s Q [] T a len -> 0 < len -> okd cat (length (ev e)) (Some e) -> so + len <= length (ev e) ->
  wp (let* s := ins (length Q) (BK 0 len None) s in
      let* s := (if 0 <? length Q then calc_pos (length Q) s else Ok s) in
      let* s := put_copy e so len (length Q) s in
      let* (s, _) := merge_adj managed (length Q) s in
      Ok s)
     (fun x => xstep cat s0 x a len (map Some (firstn len (skipn so (ev e)))) True).
Proof.
  intros H Hl He Hs. pose proof H as (E & _ & _ & _ & W & T1 & _). cbn [app] in E.
  destruct s as [l c n g ac rl fr]. cbn [bl] in E. subst l.
  unfold ins, insert_at, nblk. cbn [bl].
  destruct (Nat.leb_spec (length Q) (length (Q ++ T))) as [_|L]; [|rewrite app_length in L; lia].
  unfold with_bl. cbn [bind bl cs nid tag acq rel freed]. rewrite firstn_app_exact, skipn_app_exact. cbn [app].
  assert ((if 0 <? length Q then calc_pos (length Q) (ST (Q ++ BK 0 len None :: T) c n g ac rl fr)
           else Ok (ST (Q ++ BK 0 len None :: T) c n g ac rl fr))
          = Ok (ST (Q ++ BK a len None :: T) c n g ac rl fr)) as ->.
  { destruct Q as [|x Q _] using rev_ind; [cbn in *; subst a; reflexivity|].
    apply (wfl_bp cat) in W. cbn [Nat.add] in W. rewrite tot_app in T1. cbn [tot] in T1.
    rewrite last_length. cbn [Nat.ltb Nat.leb]. unfold calc_pos, next_pos, set_pos, bat. cbn [pred bl].
    rewrite <- app_assoc. cbn [app]. rewrite nth_error_app_mid. cbn [deref bind].
    change (S (length Q)) with (1 + length Q). rewrite nth_off. cbn [nth_error deref bind].
    rewrite set_off. unfold with_bl. cbn [set_nth bl cs nid tag acq rel freed bs bd]. replace (bp x + bs x) with a by lia. rewrite <- app_assoc. reflexivity. }
  cbn [bind]. unfold put_copy. destruct e as [ie ce le]. cbn [ecat ev] in *. cbn [fresh nid tag bl cs acq rel freed].
  rewrite set_data_at. cbn [bind bp bs]. unfold on, edata, data_at, bat, ev_acq. cbn [bl cs nid tag acq rel freed eid ecat].
  rewrite nth_error_app_mid. cbn [deref bind bd].
  unfold e_assign_from at 1. cbn [ecat]. rewrite Nat.eqb_refl. unfold e_slice at 1. cbn [ev].
  destruct (Nat.leb_spec (so + len) (length le)) as [Lq|Lq]; [|lia].
  cbn [bind]. rewrite set_data_at. cbn [bind bp bs with_ev eid ecat].
  apply wp_bind. eapply wp_mono.
  { apply (put_one cat managed _ _ _ _ _ _ _ (Some (EB (g, n) ce (firstn len (skipn so le)))) (S n) H Hl).
    split; [cbn [ev]; rewrite firstn_length, skipn_length; lia|]. cbn [ev ecat].
    apply all_cat_firstn, all_cat_skipn. apply He. }
  cbn beta. intros [s2 u] [X _]. cbn [fst wp] in *. exact X.
Qed.

Lemma exchange_multi_spec q b1 m b2 t c n g ac rl fr a len (e : eblk) so :
  let s := ST (q ++ b1 :: m ++ b2 :: t) c n g ac rl fr in
  good cat s -> tot q <= a -> a < tot q + bs b1 -> 0 < len ->
  tot q + bs b1 + tot m <= a + len - 1 -> a + len - 1 < tot q + bs b1 + tot m + bs b2 ->
  okd cat (length (ev e)) (Some e) -> so + len <= length (ev e) ->
  wp (exchange_multi managed e so (length q) (a - tot q) (S (length m + length q)) (a + len - 1 - (tot q + bs b1 + tot m)) len s)
     (fun x => xstep cat s (fst x) a len (map Some (firstn len (skipn so (ev e)))) True /\ bucket cat (snd x) s a len).
Proof.
  intros s Hs H1 H2 Hl H3 H4 He Hso. unfold exchange_multi.
  apply wp_bind. eapply wp_mono; [apply (prepare_spec cat q b1 m b2 t); auto|]. cbn beta.
  replace (a + len - 1 - a + 1) with len by lia.
  intros [[s1 B] i] (Q & T & Hh & Hb & Ei). cbn [fst snd] in *. subst i.
  pose proof (slot_in s s1 Q T a len e so Hh Hl He Hso) as X.
  revert X. generalize (ins (length Q) (BK 0 len None) s1). intros [x| |]; cbn [bind]; [|intros []|intros []].
  destruct (if 0 <? length Q then calc_pos (length Q) x else Ok x) as [y| |]; cbn [bind]; [|intros []|intros []].
  destruct (put_copy e so len (length Q) y) as [z| |]; cbn [bind]; [|intros []|intros []].
  destruct (merge_adj managed (length Q) z) as [[w u]| |]; cbn [bind wp]; [|intros []|intros []].
  cbn [fst snd]. auto.
Qed.

Lemma take_in_spec q i z ce l t c n g ac rl fr a len (r : eblk) :
  let s := ST (q ++ BK (tot q) z (Some (EB i ce l)) :: t) c n g ac rl fr in
  good cat s -> tot q <= a -> 0 < len -> a + len <= tot q + z -> len < z -> ecat r <> ce ->
  okd cat len (Some r) ->
  wp (take_in managed r (length q) (a - tot q) len (z - (a - tot q) - len) s)
     (fun x => xstep cat s x a len (map Some (ev r)) True).
Proof.
  intros s Hs H1 Hl H2 H3 Hne He. unfold s in *. clear s. destruct r as [ir cr lr]. cbn [ecat ev okd] in *.
  destruct He as [El He].
  remember (a - tot q) as off eqn:Eo. assert (a = tot q + off) as -> by lia. clear Eo.
  open_good Hs. unfold take_in. cbn [ecat].
  step_all.
  all: unfold ev_acq; cbn [fst snd ecat ev eid bl cs nid tag acq rel freed].
  all: rewrite <- ?app_assoc, ?tot_app; cbn [app tot bs].
  all: unfold xstep; repeat match goal with |- _ /\ _ => split end.
  all: try (solve [fin_step]).
  all: try (solve [intros ?; reflexivity]).
  all: match goal with |- canon _ -> True -> _ => let H := fresh in intros H _; revert H; try (solve [fin_step]) | _ => idtac end.
Qed.

Lemma set_same_spec q i z ce l t c n g ac rl fr a len (vs : list V) :
  let s := ST (q ++ BK (tot q) z (Some (EB i ce l)) :: t) c n g ac rl fr in
  good cat s -> tot q <= a -> 0 < len -> a + len <= tot q + z -> all_cat cat ce vs = true -> length vs = len ->
  wp (on (length q) (e_set cat (a - tot q) vs) s)
     (fun x => xstep cat s x a len (map Some vs) True).
Proof.
  intros s Hs H1 Hl H2 H3 H4. unfold s in *. clear s.
  remember (a - tot q) as off eqn:Eo. assert (a = tot q + off) as -> by lia. clear Eo.
  open_good Hs.
  step_all.
  all: unfold xstep; repeat match goal with |- _ /\ _ => split end.
  all: try (solve [fin_step]).
  all: try (solve [intros ?; reflexivity]).
  all: match goal with |- canon _ -> True -> _ => let H := fresh in intros H _; revert H; try (solve [fin_step]) | _ => idtac end.
Qed.

Lemma whole_in q i ce l t c n g ac rl fr len (r : eblk) :
  let s := ST (q ++ BK (tot q) len (Some (EB i ce l)) :: t) c n g ac rl fr in
  good cat s -> okd cat len (Some r) ->
  wp (let* s := set_data (length q) (Some r) (ev_rel (EB i ce l) s) in
      let* (s, _) := merge_adj managed (length q) (ev_acq r s) in Ok s)
     (fun x => xstep cat s x (tot q) len (map Some (ev r)) True).
Proof.
  intros s Hs Hr.
  assert (0 < len) as Hl.
  { destruct Hs as (W & _). apply wfl_app in W as (_ & W). cbn [wfl bs] in W. destruct W as (_ & (W & _) & _). exact W. }
  unfold s at 1, ev_rel. cbn [bl cs nid tag acq rel freed eid ecat]. rewrite set_data_at. cbn [bind bp bs].
  unfold ev_acq. cbn [bl cs nid tag acq rel freed eid ecat].
  assert (hole cat s (ST (q ++ BK (tot q) len None :: t) c n g ac (rl ++ [(i, ce)]) fr) q [BK (tot q) len None] t (tot q) len) as Hh.
  { apply mk_hole; auto.
    - unfold s. cbn [bl]. apply lcut_whole. apply Hs.
    - unfold s. cbn [bl].
      replace (q ++ BK (tot q) len (Some (EB i ce l)) :: t) with ((q ++ [BK (tot q) len (Some (EB i ce l))]) ++ t) by (rewrite <- app_assoc; reflexivity).
      replace (tot q + len) with (tot (q ++ [BK (tot q) len (Some (EB i ce l))])) by (rewrite tot_app; cbn [tot bs]; lia).
      apply rcut_whole. rewrite <- app_assoc. apply Hs.
    - intros p'. unfold s. fin_cnt0. lia. }
  apply wp_bind. eapply wp_mono.
  { apply (put_one cat managed _ _ _ _ _ _ _ (Some r) n Hh Hl Hr). }
  cbn beta. intros [s3 o4] [X4 _]. cbn [fst wp] in *. exact X4.
Qed.

(** The rows of a block with elements are taken out without being freed. *)
Lemma own_none c : own managed c (@nil V) = [].
Proof. unfold own. destruct (managed c); reflexivity. Qed.

Lemma cut_whole_spec q i z ce l t c n g ac rl fr :
  let s := ST (q ++ BK (tot q) z (Some (EB i ce l)) :: t) c n g ac rl fr in
  good cat s ->
  wp (let* s := on (length q) (e_resize 0) s in
      let* s := delete_element_block managed (length q) s in
      del (length q) 1 s)
     (fun x => hole cat s x q [] t (tot q) z).
Proof.
  intros s Hs. unfold s in *. clear s. pose proof Hs as Hs0. open_good Hs0.
  step_all. rewrite own_none, app_nil_r.
  apply mk_hole; auto; cbn [bl cs tag freed].
  - apply lcut_whole. apply Hs.
  - replace (q ++ BK (tot q) (length l) (Some (EB i ce l)) :: t) with ((q ++ [BK (tot q) (length l) (Some (EB i ce l))]) ++ t) by (rewrite <- app_assoc; reflexivity).
    replace (tot q + length l) with (tot (q ++ [BK (tot q) (length l) (Some (EB i ce l))])) by (rewrite tot_app; cbn [tot bs]; lia).
    apply rcut_whole. rewrite <- app_assoc. apply Hs.
  - intros p'. fin_cnt0. lia.
Qed.

Lemma cut_top_spec q i z ce l t c n g ac rl fr len :
  let s := ST (q ++ BK (tot q) z (Some (EB i ce l)) :: t) c n g ac rl fr in
  good cat s -> 0 < len < z ->
  wp (let* s := on (length q) (e_erase 0 len) s in
      let* s := size_sub (length q) len s in
      pos_add (length q) len s)
     (fun x => exists T, hole cat s x q [] T (tot q) len).
Proof.
  intros s Hs Hl. unfold s in *. clear s. pose proof Hs as Hs0. open_good Hs0.
  step_all. match goal with |- exists _, hole _ _ (ST (q ++ ?b :: t) _ _ _ _ _ _) _ _ _ _ _ => exists (b :: t) end.
  apply mk_hole; auto; cbn [bl cs tag freed]; [..|intros p'; fin_cnt0; lia].
  - apply lcut_whole. apply Hs.
  - apply (rcut_part cat _ (BK (tot q) (length l) (Some (EB i ce l))) _ _ len); auto; [apply Hs|..]; cbn [bs bp bd]; try lia.
    + unfold okb, okd. cbn [bs bd ev ecat]. split; [lia|]. split; [cbn [firstn app]; lens; lia|].
      cbn [firstn app Nat.add]. now apply all_cat_skipn.
    + unfold flatb. cbn [bd ev firstn app Nat.add]. now rewrite skipn_map.
Qed.

Lemma cut_bottom_spec q i z ce l t c n g ac rl fr off len :
  let s := ST (q ++ BK (tot q) z (Some (EB i ce l)) :: t) c n g ac rl fr in
  good cat s -> 0 < off -> 0 < len -> off + len = z ->
  wp (let* s := on (length q) (e_resize off) s in set_size (length q) off s)
     (fun x => exists Q, hole cat s x Q [] t (tot q + off) len /\ length Q = S (length q)).
Proof.
  intros s Hs Ho Hl Hz. unfold s in *. clear s. pose proof Hs as Hs0. open_good Hs0.
  step_all. match goal with |- exists _, hole _ _ (ST (q ++ ?b :: t) _ _ _ _ _ _) _ _ _ _ _ /\ _ => exists (q ++ [b]) end. split; [|apply last_length].
  apply mk_hole; auto; cbn [bl cs tag freed app]; [..|rewrite <- app_assoc; reflexivity|intros p'; fin_cnt0; lia].
  - apply (lcut_part cat _ (BK (tot q) (off + len) (Some (EB i ce l))) _ _ off); auto; [apply Hs|..]; cbn [bs bp bd]; try lia.
    + unfold okb, okd. cbn [bs bd ev ecat]. split; [lia|]. split; [lens; lia|]. now apply all_cat_firstn.
    + unfold flatb. cbn [bd ev]. now rewrite firstn_map.
  - replace (q ++ BK (tot q) (off + len) (Some (EB i ce l)) :: t) with ((q ++ [BK (tot q) (off + len) (Some (EB i ce l))]) ++ t) by (rewrite <- app_assoc; reflexivity).
    replace (tot q + off + len) with (tot (q ++ [BK (tot q) (off + len) (Some (EB i ce l))])) by (rewrite tot_app; cbn [tot bs]; lia).
    apply rcut_whole. rewrite <- app_assoc. apply Hs.
Qed.

Lemma cut_mid_spec q i z ce l t c n g ac rl fr off len :
  let s := ST (q ++ BK (tot q) z (Some (EB i ce l)) :: t) c n g ac rl fr in
  good cat s -> 0 < off -> 0 < len -> off + len < z ->
  wp (let* (s, _) := to_middle managed (length q) off len false s in
      let* s := delete_element_block managed (S (length q)) s in
      del (S (length q)) 1 s)
     (fun x => exists Q T, hole cat s x Q [] T (tot q + off) len /\ length Q = S (length q)).
Proof.
  intros s Hs Ho Hl Hz. unfold s in *. clear s. pose proof Hs as Hs0. open_good Hs0.
  step_all.
  all: rewrite ?own_none, ?app_nil_r.
  all: match goal with |- exists _ _, hole _ _ (ST (?q0 ++ ?b :: ?b1 :: ?t0) _ _ _ _ _ _) _ _ _ _ _ /\ _ => exists (q0 ++ [b]), (b1 :: t0) end.
  all: split; [|apply last_length].
  all: apply mk_hole; auto; cbn [bl cs tag freed app]; [..|rewrite <- app_assoc; reflexivity|intros p'; fin_cnt0; lia].
  all: try (apply (lcut_part cat _ (BK (tot q) (length l) (Some (EB i ce l))) _ _ off); auto; [apply Hs|..]; cbn [bs bp bd]; try lia).
  all: try (apply (rcut_part cat _ (BK (tot q) (length l) (Some (EB i ce l))) _ _ (off + len)); auto; [lia|apply Hs|..]; cbn [bs bp bd]; try lia).
  all: unfold okb, okd, flatb; cbn [bs bd ev ecat]; repeat match goal with |- _ /\ _ => split end; try (solve [lens; lia]); try (solve [cats]).
  all: try (solve [lnorm; leq]).
Qed.
End P.
