(** multi_type_vector: the public operations on a container that satisfies the
    invariant. *)
From Coq Require Import List ZArith Lia Bool.
From Verif Require Import Base MtvModel MtvProofs MtvSet MtvEmpty MtvEmpty2 MtvInsert MtvAppend
  MtvErase MtvErase2 MtvRange MtvRange2 MtvRange3 MtvResize.
Import ListNotations.

Section P.
Set Default Proof Using "Type".
Context {V : Type}.
Variable cat : V -> nat.
Variable managed : nat -> bool.
Notation eblk := (@eblk V).
Notation blk := (@blk V).
Notation st := (@st V).

Lemma find_two p (l : list blk) ra rb :
  wfl cat p l -> p <= ra -> ra <= rb -> rb < p + tot l ->
  (exists q b t, l = q ++ b :: t /\ p + tot q <= ra /\ rb < p + tot q + bs b) \/
  (exists q b1 m b2 t, l = q ++ b1 :: m ++ b2 :: t /\ p + tot q <= ra /\ ra < p + tot q + bs b1 /\
     p + tot q + bs b1 + tot m <= rb /\ rb < p + tot q + bs b1 + tot m + bs b2).
Proof.
  intros Hw H1 H2 H3.
  destruct (find_block cat p l ra Hw ltac:(lia)) as (q & b & t & E & H4). subst l.
  destruct (Nat.lt_ge_cases rb (p + tot q + bs b)) as [L|L].
  - left. exists q, b, t. split; [reflexivity|lia].
  - right. apply wfl_app in Hw as [Hq Hw]. cbn [wfl] in Hw. destruct Hw as (Hb & _ & Ht).
    rewrite tot_app in H3. cbn [tot] in H3.
    destruct (find_block cat (p + tot q + bs b) t rb Ht ltac:(lia)) as (m & b2 & t2 & E & H5). subst t.
    exists q, b, m, b2, t2. split; [reflexivity|lia].
Qed.

Lemma len_flat (s : st) : good cat s -> length (flat s) = cs s.
Proof. intros (H1 & H2 & _). rewrite H2. now apply (flatl_length cat 0). Qed.

Lemma get_spec (s : st) pos :
  good cat s -> pos < cs s -> exists x, nth_error (flat s) pos = Some x /\ get pos s = Ok x.
Proof.
  intros Hg Hp. destruct s as [l c n g a r f]. destruct Hg as (Hw & Hc & _). cbn [bl cs] in *.
  destruct (find_block cat 0 l pos Hw ltac:(lia)) as (q & b & t & E & H). subst l.
  unfold get. rewrite (locate_spec cat None q b t c n g a r f pos); auto.
  cbn [bind]. unfold data_at, pos_at, bat. cbn [bl]. rewrite nth_error_app_mid. cbn [deref bind].
  pose proof (wfl_bp cat _ _ _ _ Hw) as Hb. cbn [Nat.add] in *.
  apply wfl_app in Hw as [Hq Hw]. cbn [wfl] in Hw. destruct Hw as (_ & [_ Hok] & _).
  apply flatl_length in Hq.
  unfold flat. cbn [bl]. rewrite flatl_app, flatl_cons.
  rewrite nth_error_app2 by lia.
  unfold flatb, okd in *. destruct (bd b) as [e|].
  - destruct Hok as [Hl _]. 
    destruct (nth_error (ev e) (pos - bp b)) as [v|] eqn:Ev.
    + exists (Some v). cbn [deref bind]. split; [|reflexivity].
      rewrite nth_error_app1 by (rewrite map_length; lia).
      rewrite Hq. rewrite Hb in Ev. now apply map_nth_error.
    + apply nth_error_None in Ev. lia.
  - exists None. split; [|reflexivity].
    rewrite nth_error_app1 by (rewrite repeat_length; lia).
    apply nth_error_repeat. lia.
Qed.

Lemma get_type_spec (s : st) pos :
  good cat s -> pos < cs s ->
  exists x, nth_error (flat s) pos = Some x /\ get_type pos s = Ok (option_map cat x)
    /\ is_empty pos s = Ok (match x with None => true | Some _ => false end).
Proof.
  intros Hg Hp. destruct s as [l c n g a r f]. destruct Hg as (Hw & Hc & _). cbn [bl cs] in *.
  destruct (find_block cat 0 l pos Hw ltac:(lia)) as (q & b & t & E & H). subst l.
  unfold get_type, is_empty. rewrite (locate_spec cat None q b t c n g a r f pos); auto.
  cbn [bind]. unfold data_at, pos_at, bat. cbn [bl]. rewrite nth_error_app_mid. cbn [deref bind].
  pose proof (wfl_bp cat _ _ _ _ Hw) as Hb. cbn [Nat.add] in *.
  apply wfl_app in Hw as [Hq Hw]. cbn [wfl] in Hw. destruct Hw as (_ & [_ Hok] & _).
  apply flatl_length in Hq.
  unfold flat. cbn [bl]. rewrite flatl_app, flatl_cons.
  rewrite nth_error_app2 by lia.
  unfold flatb, okd in *. destruct (bd b) as [e|].
  - destruct Hok as [Hl Hc2].
    destruct (nth_error (ev e) (pos - tot q)) as [v|] eqn:Ev.
    + exists (Some v). split; [|split; [|reflexivity]].
      * rewrite nth_error_app1 by (rewrite map_length; lia).
        rewrite Hq. now apply map_nth_error.
      * cbn [dcat option_map]. do 2 f_equal.
        apply nth_error_In in Ev. unfold all_cat in Hc2. rewrite forallb_forall in Hc2.
        apply Hc2 in Ev. apply Nat.eqb_eq in Ev. now rewrite Ev.
    + apply nth_error_None in Ev. lia.
  - exists None. split; [|split; reflexivity].
    rewrite nth_error_app1 by (rewrite repeat_length; lia).
    apply nth_error_repeat. lia.
Qed.

Lemma locate_none (s : st) pos : cs s <= pos -> locate None pos s = Throw E_out_of_range.
Proof.
  intros H. unfold locate. rewrite (block_pos_out s pos 0 H). cbn [bind].
  now rewrite Nat.eqb_refl.
Qed.

Lemma block_pos_hint_out (s : st) h pos :
  0 < nblk s -> wfl cat 0 (bl s) -> cs s = tot (bl s) -> cs s <= pos ->
  block_pos_hint h pos s = Ok (nblk s).
Proof.
  intros Hn Hw Hc H. unfold block_pos_hint.
  set (bi := match h with Some i => if i <? nblk s then i else 0 | None => 0 end).
  assert (bi < nblk s) as Hbi.
  { unfold bi. destruct h as [i|]; [|lia]. destruct (Nat.ltb_spec i (nblk s)); lia. }
  clearbody bi. unfold nblk in Hbi.
  destruct (nth_split_len _ _ Hbi) as (q & b & t & E & Hq).
  unfold pos_at, bat. rewrite E at 1. rewrite <- Hq, nth_error_app_mid. cbn [deref bind].
  rewrite E in Hw, Hc. pose proof (wfl_bp cat _ _ _ _ Hw) as Hb.
  rewrite tot_app in Hc. cbn [tot] in Hc.
  apply wfl_app in Hw as [_ Hw]. cbn [wfl] in Hw. destruct Hw as (_ & [Hz _] & _).
  destruct (Nat.ltb_spec pos (bp b)); [lia|]. now apply block_pos_out.
Qed.

Lemma locate_out (s : st) h pos :
  good cat s -> (h = None \/ 0 < nblk s) -> cs s <= pos -> locate h pos s = Throw E_out_of_range.
Proof.
  intros (Hw & Hc & _) Hh H. destruct h as [h|]; [|now apply locate_none].
  destruct Hh as [Hh|Hh]; [discriminate|]. unfold locate.
  rewrite block_pos_hint_out by auto. cbn [bind]. now rewrite Nat.eqb_refl.
Qed.

(** A hint into a container without blocks reads positions[0] (finding M6). *)
Lemma locate_hint_empty (s : st) h pos : nblk s = 0 -> locate (Some h) pos s = Undef.
Proof.
  unfold nblk. intros H. destruct s as [[|b l] c n g a r f]; [|discriminate]. unfold locate, block_pos_hint.
  destruct h; reflexivity.
Qed.

Lemma nblk_pos (s : st) : good cat s -> (0 < nblk s <-> 0 < cs s).
Proof.
  clear managed.
  intros (Hw & Hc & _). rewrite Hc. unfold nblk. destruct (bl s) as [|b l]; cbn [length tot]; [tauto|].
  cbn [wfl] in Hw. destruct Hw as (_ & [H _] & _). split; lia.
Qed.

Lemma set_spec (s : st) h pos v :
  good cat s -> pos < cs s ->
  wp (set cat managed h pos v s)
     (fun x => step cat managed s (fst x) (splice pos 1 [Some v] (flat s)) (own managed (cat v) [v]) []
               /\ at_pos (fst x) (snd x) pos).
Proof.
  intros Hg Hp. destruct s as [l c n g a r f]. pose proof Hg as (Hw & Hc & _). cbn [bl cs] in *.
  destruct (find_block cat 0 l pos Hw ltac:(lia)) as (q & b & t & E & H). subst l.
  unfold set. rewrite (locate_spec cat h q b t c n g a r f pos); auto.
  cbn [bind]. apply set_impl_spec; auto.
Qed.

Lemma insert_empty_spec (s : st) h pos len :
  good cat s -> pos < cs s -> 0 < len ->
  wp (insert_empty h pos len s)
     (fun x => step cat managed s (fst x) (splice pos 0 (repeat None len) (flat s)) [] []
               /\ at_pos (fst x) (snd x) pos).
Proof.
  intros Hg Hp Hl. destruct s as [l c n g a r f]. pose proof Hg as (Hw & Hc & _). cbn [bl cs] in *.
  destruct (find_block cat 0 l pos Hw ltac:(lia)) as (q & b & t & E & H). subst l.
  unfold insert_empty. rewrite (locate_spec cat h q b t c n g a r f pos); auto.
  destruct (Nat.eqb_spec len 0); [lia|].
  cbn [bind]. apply insert_empty_impl_spec; auto.
Qed.

(** The block found before a row of another block of values: finding M1. *)
Definition insert_events_ok (s : st) (pos c : nat) : Prop :=
  forall q b t e, bl s = q ++ b :: t -> tot q = pos -> bd b = Some e -> ecat e <> c ->
    exists q' b', q = q' ++ [b'] /\ bcat b' = Some c.

Lemma insert_spec (s : st) h pos v0 vs :
  good cat s -> pos < cs s -> all_cat cat (cat v0) vs = true ->
  wp (insert cat h pos (v0 :: vs) s)
     (fun x => step0 cat managed s (fst x) (splice pos 0 (map Some (v0 :: vs)) (flat s))
                 (own managed (cat v0) (v0 :: vs)) []
               /\ at_pos (fst x) (snd x) pos
               /\ (insert_events_ok s pos (cat v0) -> events s (fst x))).
Proof.
  intros Hg Hp Hv. destruct s as [l c n g a r f]. pose proof Hg as (Hw & Hc & _). cbn [bl cs] in *.
  destruct (find_block cat 0 l pos Hw ltac:(lia)) as (q & b & t & E & H). subst l.
  unfold insert. rewrite (locate_spec cat h q b t c n g a r f pos); auto.
  cbn [bind]. eapply wp_mono; [apply (insert_cells_impl_spec cat managed); eauto|].
  cbn beta. intros x (H1 & H2 & H3). split; [exact H1|]. split; [exact H2|].
  intros H4. apply H3. intros e E1 E2 E3. apply (H4 q b t e); auto.
Qed.

Definition wholly (ow : bool) (s : st) (ra n : nat) : list V :=
  if ow then []
  else flat_map (fun o => match o with Some v => own managed (cat v) [v] | None => [] end)
         (firstn n (skipn ra (flat s))).

Definition oown (o : option V) : list V := match o with Some v => own managed (cat v) [v] | None => [] end.

Lemma oown_map c (l : list V) : all_cat cat c l = true -> flat_map oown (map Some l) = own managed c l.
Proof.
  induction l as [|x l IH]; cbn [map flat_map oown].
  - unfold own. now destruct (managed c).
  - rewrite all_cat_cons, andb_true_iff, Nat.eqb_eq. intros [<- H]. rewrite IH by auto.
    unfold own. now destruct (managed (cat x)).
Qed.

Lemma oown_repeat n : flat_map oown (repeat None n) = [].
Proof. induction n; simpl; auto. Qed.

Lemma oown_flatb b : okb cat b -> flat_map oown (flatb b) = mob managed b.
Proof.
  unfold okb, okd, flatb, mob. destruct (bd b) as [e|]; intros [H1 H2].
  - apply oown_map. tauto.
  - apply oown_repeat.
Qed.

Lemma oown_flatl p l : wfl cat p l -> flat_map oown (flatl l) = mo managed l.
Proof.
  revert p; induction l as [|b l IH]; intros p; [reflexivity|]. cbn [wfl].
  intros (_ & H1 & H2). rewrite flatl_cons, flat_map_app, oown_flatb by auto.
  now rewrite (IH _ H2).
Qed.

Lemma taken_flat b k n : okb cat b ->
  taken managed false b k n = flat_map oown (firstn n (skipn k (flatb b))).
Proof.
  unfold okb, okd, flatb, taken. destruct (bd b) as [e|]; intros [H1 H2].
  - rewrite skipn_map, firstn_map. symmetry. apply oown_map.
    apply all_cat_firstn, all_cat_skipn. tauto.
  - rewrite skipn_rep, firstn_rep. now rewrite oown_repeat.
Qed.

Lemma slice_in {A} (x y z : list A) a n :
  length x <= a -> a + n <= length x + length y ->
  firstn n (skipn a (x ++ y ++ z)) = firstn n (skipn (a - length x) y).
Proof.
  intros H1 H2. rewrite skipn_app, skipn_all2 by lia. cbn [app].
  rewrite skipn_app, firstn_app.
  replace (n - length (skipn (a - length x) y)) with 0 by (rewrite skipn_length; lia).
  cbn [firstn]. apply app_nil_r.
Qed.

Lemma set_empty_impl_spec (s : st) ra rb q b t ow :
  good cat s -> ra <= rb -> rb < cs s ->
  bl s = q ++ b :: t -> tot q <= ra < tot q + bs b ->
  wp (set_empty_impl managed ra rb (length q) ow s)
     (fun x => step cat managed s (fst x)
                 (splice ra (S (rb - ra)) (repeat None (S (rb - ra))) (flat s))
                 [] (if ow then [] else flat_map oown (firstn (S (rb - ra)) (skipn ra (flat s))))
               /\ at_pos (fst x) (snd x) ra).
Proof.
  intros Hg H1 H2 E H3. destruct s as [l c n g a r f]. pose proof Hg as (Hw & Hc & _). cbn [bl cs] in *.
  unfold set_empty_impl. destruct (Nat.ltb_spec rb ra) as [L0|_]; [lia|]. subst l.
  destruct (Nat.lt_ge_cases rb (tot q + bs b)) as [L|L].
  - pose proof (block_pos_spec cat q [] b t c n g a r f rb) as B. rewrite app_nil_r in B.
    rewrite B by (auto; lia). cbn [bind]. unfold nblk. cbn [bl].
    destruct (Nat.eqb_spec (length q) (length (q ++ b :: t))) as [E|_];
      [rewrite app_length in E; simpl in E; lia|].
    rewrite Nat.eqb_refl.
    eapply wp_mono; [apply (set_empty_single_spec cat); auto; lia|].
    cbn beta. intros x H. 
    replace (taken managed ow b (ra - bp b) (S (rb - ra)))
      with (if ow then [] else flat_map oown (firstn (S (rb - ra)) (skipn ra (flat (ST (q ++ b :: t) c n g a r f)))))
      in H; [exact H|].
    destruct ow; [reflexivity|]. 
    pose proof (wfl_bp cat _ _ _ _ Hw) as Hb. cbn [Nat.add] in Hb.
    apply wfl_app in Hw as [Hq Hw]. cbn [wfl] in Hw. destruct Hw as (_ & Hok & Ht).
    rewrite taken_flat by auto. f_equal. unfold flat. cbn [bl]. rewrite flatl_app, flatl_cons.
    rewrite slice_in; rewrite ?(flatl_length cat 0 q Hq), ?(flatb_length cat b Hok); try lia.
    now rewrite Hb.
  - pose proof Hw as Hw'. apply wfl_app in Hw' as [Hq Hw']. cbn [wfl] in Hw'. destruct Hw' as (Hb1 & Hok1 & Ht).
    rewrite tot_app in Hc. cbn [tot] in Hc.
    destruct (find_block cat _ t rb Ht ltac:(lia)) as (m & b2 & t2 & E & H5). subst t.
    assert (q ++ b :: m ++ b2 :: t2 = (q ++ b :: m) ++ b2 :: t2) as E by (rewrite <- app_assoc; reflexivity).
    rewrite E.
    rewrite (block_pos_spec cat q (b :: m) b2 t2); cbn [bl];
      [|rewrite <- E; auto|rewrite <- E, tot_app; cbn [tot]; lia|rewrite tot_app; cbn [tot]; lia].
    rewrite <- E. cbn [bind]. unfold nblk. cbn [bl].
    replace (length (q ++ b :: m)) with (S (length m + length q)) by (rewrite app_length; simpl; lia).
    destruct (Nat.eqb_spec (S (length m + length q)) (length (q ++ b :: m ++ b2 :: t2))) as [E1|_];
      [rewrite app_length in E1; simpl in E1; rewrite app_length in E1; simpl in E1; lia|].
    destruct (Nat.eqb_spec (length q) (S (length m + length q))) as [E1|_]; [lia|].
    cbn [Nat.add] in *.
    eapply wp_mono; [apply (set_empty_multi_spec cat); auto; lia|].
    cbn beta. intros x H. 
    match type of H with context [step _ _ _ _ _ [] ?X] => 
      replace X
      with (if ow then [] else flat_map oown (firstn (S (rb - ra)) (skipn ra (flat (ST (q ++ b :: m ++ b2 :: t2) c n g a r f)))))
      in H; [exact H|] end.
    destruct ow; [reflexivity|]. clear H.
    rewrite Hb1.
    apply wfl_app in Ht as [Hm Ht]. cbn [wfl] in Ht. destruct Ht as (Hb2 & Hok2 & Ht2).
    rewrite !taken_flat by auto. rewrite <- (oown_flatl _ _ Hm), <- !flat_map_app. f_equal.
    unfold flat. cbn [bl]. rewrite flatl_app, flatl_cons, flatl_app, flatl_cons.
    apply flatl_length in Hq, Hm. apply (flatb_length cat) in Hok1, Hok2.
    rewrite skipn_app, skipn_all2 by lia. cbn [app].
    rewrite skipn_app. replace (ra - length (flatl q) - length (flatb b)) with 0 by lia. cbn [skipn].
    rewrite firstn_app. rewrite firstn_all2 by (rewrite skipn_length; lia).
    rewrite (firstn_all2 (n := tot q + bs b - ra)) by (rewrite skipn_length; lia).
    rewrite Hq. f_equal.
    rewrite firstn_app, firstn_all2 by (rewrite skipn_length; lia). f_equal.
    rewrite firstn_app.
    rewrite skipn_length, Hok1, Hm.
    rewrite Hok2.
    match goal with |- _ ++ firstn ?k _ = _ => replace k with 0 by lia end.
    rewrite firstn_O, app_nil_r. cbn [skipn]. f_equal. lia.
Qed.

Lemma set_empty_spec (s : st) h ra rb :
  good cat s -> ra <= rb -> rb < cs s ->
  wp (set_empty managed h ra rb s)
     (fun x => step cat managed s (fst x)
                 (splice ra (S (rb - ra)) (repeat None (S (rb - ra))) (flat s)) [] []
               /\ at_pos (fst x) (snd x) ra).
Proof.
  intros Hg H1 H2. destruct s as [l c n g a r f]. pose proof Hg as (Hw & Hc & _). cbn [bl cs] in *.
  destruct (find_block cat 0 l ra Hw ltac:(lia)) as (q & b & t & E & H). subst l.
  unfold set_empty. rewrite (locate_spec cat h q b t c n g a r f ra); auto.
  cbn [bind]. apply (set_empty_impl_spec _ ra rb q b t true); auto.
Qed.

Lemma release_range_spec (s : st) h ra rb :
  good cat s -> ra <= rb -> rb < cs s ->
  wp (release_range managed h ra rb s)
     (fun x => step cat managed s (fst x)
                 (splice ra (S (rb - ra)) (repeat None (S (rb - ra))) (flat s))
                 [] (flat_map oown (firstn (S (rb - ra)) (skipn ra (flat s))))
               /\ at_pos (fst x) (snd x) ra).
Proof.
  intros Hg H1 H2. destruct s as [l c n g a r f]. pose proof Hg as (Hw & Hc & _). cbn [bl cs] in *.
  destruct (find_block cat 0 l ra Hw ltac:(lia)) as (q & b & t & E & H). subst l.
  unfold release_range. rewrite (locate_spec cat h q b t c n g a r f ra); auto.
  cbn [bind]. apply (set_empty_impl_spec _ ra rb q b t false); auto.
Qed.

Lemma splice_same {A} (l : list A) k x : nth_error l k = Some x -> splice k 1 [x] l = l.
Proof.
  intros H. apply nth_error_split in H as (a & b & -> & <-). unfold splice.
  rewrite firstn_app_exact. cbn [app].
  f_equal. f_equal. replace (a ++ x :: b) with ((a ++ [x]) ++ b) by (rewrite <- app_assoc; reflexivity).
  rewrite Nat.add_1_r, <- (last_length a x). apply skipn_app_exact.
Qed.

Lemma step_refl (s : st) : good cat s -> step cat managed s s (flat s) [] [].
Proof.
  intros H. split; [|intros p; lia]. split; [exact H|]. repeat split; auto.
Qed.

Lemma release_spec (s : st) h pos :
  good cat s -> pos < cs s ->
  wp (release managed h pos s)
     (fun x => nth_error (flat s) pos = Some (snd x) /\
               step cat managed s (fst (fst x)) (splice pos 1 [None] (flat s)) [] (oown (snd x))
               /\ at_pos (fst (fst x)) (snd (fst x)) pos).
Proof.
  intros Hg Hp. destruct (get_spec s pos Hg Hp) as (x & Hx & Hget).
  destruct s as [l c n g a r f]. pose proof Hg as (Hw & Hc & _). cbn [bl cs] in *.
  destruct (find_block cat 0 l pos Hw ltac:(lia)) as (q & b & t & E & H). subst l.
  unfold get in Hget. rewrite (locate_spec cat None q b t c n g a r f pos) in Hget; auto.
  unfold release. rewrite (locate_spec cat h q b t c n g a r f pos); auto.
  cbn [bind] in *. unfold data_at, pos_at, bat in *. cbn [bl] in *. rewrite nth_error_app_mid in *.
  cbn [deref bind] in *. cbn [Nat.add] in H.
  destruct (bd b) as [e|] eqn:Eb.
  - destruct (nth_error (ev e) (pos - bp b)) as [v|] eqn:Ev; cbn [deref bind] in *; [|discriminate].
    injection Hget as <-.
    pose proof (set_empty_single_spec cat managed q b t c n g a r f pos pos false Hg ltac:(lia) (le_n pos) ltac:(lia)) as Hs.
    apply wp_ok in Hs as (y & Ey & Hy1 & Hy2). rewrite Ey. cbn [bind]. destruct y as [s' bi]. cbn [wp fst snd] in *.
    split; [exact Hx|]. split; [|exact Hy2].
    rewrite Nat.sub_diag in Hy1. cbn [repeat] in Hy1.
    replace (taken managed false b (pos - bp b) 1) with (oown (Some v)) in Hy1; [exact Hy1|].
    pose proof Hw as Hw'. apply wfl_app in Hw' as [Hq Hw']. cbn [wfl] in Hw'. destruct Hw' as (_ & Hok & _).
    rewrite taken_flat by auto. unfold flatb. rewrite Eb. rewrite skipn_map, firstn_map.
    apply nth_error_split in Ev as (u & w & Eu & Hu). rewrite Eu, <- Hu.
    rewrite skipn_app_exact. cbn [firstn map flat_map]. now rewrite app_nil_r.
  - injection Hget as <-. cbn [wp fst snd]. split; [exact Hx|].
    rewrite splice_same by exact Hx. split; [apply step_refl; exact Hg|].
    exists b. cbn [bl]. split; [apply nth_error_app_mid|].
    rewrite (wfl_bp cat _ _ _ _ Hw). lia.
Qed.

Lemma release_all_spec (s : st) :
  good cat s -> step cat managed s (release_all s) [] [] (flat_map oown (flat s)).
Proof.
  intros Hg. pose proof Hg as (Hw & _). unfold release_all. split.
  - split; [split; [exact I|split; [reflexivity|exact I]]|].
    split; [reflexivity|]. split; [intros _; exact I|]. split; [reflexivity|].
    intros p. cbn [freed bl mo flat_map]. unfold flat. rewrite (oown_flatl 0) by auto. simpl. lia.
  - intros p. cbn [acq rel bl]. rewrite cnt_app. fold (@refb V). 
    change (flat_map _ (bl s)) with (refs (bl s)). rewrite refs_nil. cbn [cnt]. lia.
Qed.

Lemma clear_spec (s : st) :
  good cat s -> wp (clear managed s) (fun s' => step cat managed s s' [] [] []).
Proof.
  intros Hg. destruct s as [l c n g a r f]. unfold clear, nblk. cbn [bl].
  destruct (delete_blocks_spec managed [] l [] c n g a r f) as (l' & Hl & E).
  cbn [app length] in E. rewrite !app_nil_r in E. rewrite E. cbn [bind wp].
  unfold with_cs, with_bl. cbn [bl cs nid tag acq rel freed]. split.
  - split; [split; [exact I|split; [reflexivity|exact I]]|].
    split; [reflexivity|]. split; [intros _; exact I|]. split; [reflexivity|].
    intros p. cbn [freed bl]. rewrite cnt_app, mo_nil. cbn [cnt]. lia.
  - intros p. cbn [acq rel bl]. rewrite cnt_app, refs_nil. cbn [cnt]. lia.
Qed.

Lemma erase_spec (s : st) ra rb :
  good cat s -> ra <= rb -> rb < cs s ->
  wp (erase managed ra rb s)
     (fun x => step cat managed s x (splice ra (S (rb - ra)) [] (flat s)) [] []).
Proof.
  intros Hg H1 H2. destruct s as [l c n g a r f]. pose proof Hg as (Hw & Hc & _). cbn [bl cs] in *.
  unfold erase, erase_impl. destruct (Nat.ltb_spec rb ra); [lia|].
  destruct (find_two 0 l ra rb Hw ltac:(lia) H1 ltac:(lia))
    as [(q & b & t & E & H3 & H4)|(q & b & m & b2 & t & E & H3 & H4 & H5 & H6)]; subst l; cbn [Nat.add] in *.
  - pose proof (block_pos_spec cat [] q b t c n g a r f ra) as B1. cbn [app length] in B1.
    rewrite B1 by (auto; lia). cbn [bind]. unfold nblk. cbn [bl].
    destruct (Nat.eqb_spec (length q) (length (q ++ b :: t))) as [E|_];
      [rewrite app_length in E; simpl in E; lia|].
    pose proof (block_pos_spec cat q [] b t c n g a r f rb) as B. rewrite app_nil_r in B.
    rewrite B by (auto; lia). cbn [bind].
    destruct (Nat.eqb_spec (length q) (length (q ++ b :: t))) as [E|_];
      [rewrite app_length in E; simpl in E; lia|].
    rewrite Nat.eqb_refl. apply erase_single_spec; auto.
  - pose proof (block_pos_spec cat [] q b (m ++ b2 :: t) c n g a r f ra) as B1. cbn [app length] in B1.
    rewrite B1 by (auto; lia). cbn [bind]. unfold nblk. cbn [bl].
    assert (length (q ++ b :: m ++ b2 :: t) = S (S (length m + length q)) + length t) as El
      by (rewrite app_length; simpl; rewrite app_length; simpl; lia).
    destruct (Nat.eqb_spec (length q) (length (q ++ b :: m ++ b2 :: t))) as [E|_]; [lia|].
    assert (q ++ b :: m ++ b2 :: t = (q ++ b :: m) ++ b2 :: t) as E by (rewrite <- app_assoc; reflexivity).
    pose proof (block_pos_spec cat q (b :: m) b2 t c n g a r f rb) as B. rewrite <- E in B.
    rewrite B; cbn [bl]; [|auto|lia|rewrite tot_app; cbn [tot]; lia].
    cbn [bind].
    replace (length (q ++ b :: m)) with (S (length m + length q)) by (rewrite app_length; simpl; lia).
    destruct (Nat.eqb_spec (S (length m + length q)) (length (q ++ b :: m ++ b2 :: t))) as [E1|_]; [lia|].
    destruct (Nat.eqb_spec (length q) (S (length m + length q))) as [E1|_]; [lia|].
    apply erase_multi_spec; auto; lia.
Qed.

(** The block that is cut by a shrinking resize (finding M2). *)
Definition resize_ok (n : nat) (s : st) : Prop :=
  0 < n -> n < cs s ->
  forall q b t, bl s = q ++ b :: t -> tot q < n <= tot q + bs b -> shrink_ok managed b n.

Lemma step_eq (s s' : st) F F' i o : step cat managed s s' F i o -> F = F' -> step cat managed s s' F' i o.
Proof. now intros H <-. Qed.

Lemma resize_spec (s : st) n :
  good cat s -> resize_ok n s ->
  wp (resize managed n s)
     (fun x => step cat managed s x (firstn n (flat s) ++ repeat None (n - cs s)) [] []).
Proof.
  intros Hg Hok. unfold resize. pose proof (len_flat s Hg) as Hl.
  destruct (Nat.eqb_spec n (cs s)) as [E|E].
  - cbn [wp]. eapply step_eq; [apply step_refl; exact Hg|].
    subst n. rewrite Nat.sub_diag. cbn [repeat]. rewrite app_nil_r. symmetry. apply firstn_all2. lia.
  - destruct (Nat.eqb_spec n 0) as [E0|E0].
    + subst n. cbn [firstn app Nat.sub repeat]. now apply clear_spec.
    + destruct (Nat.ltb_spec (cs s) n) as [L|L].
      * pose proof (append_empty_spec cat managed s (n - cs s) Hg ltac:(lia)) as Ha.
        apply wp_ok in Ha as ((s' & k) & E1 & H1 & _). rewrite E1. cbn [bind wp fst] in *.
        eapply step_eq; [exact H1|]. now rewrite firstn_all2 by lia.
      * destruct s as [l c k g a r f]. pose proof Hg as (Hw & Hc & _). cbn [bl cs] in *.
        destruct (find_block cat 0 l (n - 1) Hw ltac:(lia)) as (q & b & t & E1 & H). subst l.
        cbn [Nat.add] in H.
        pose proof (block_pos_spec cat [] q b t c k g a r f (n - 1)) as B1. cbn [app length] in B1.
        rewrite B1 by (auto; lia). cbn [bind]. unfold nblk. cbn [bl].
        destruct (Nat.eqb_spec (length q) (length (q ++ b :: t))) as [E1|_];
          [rewrite app_length in E1; simpl in E1; lia|].
        eapply wp_mono.
        { apply (resize_down_spec cat); auto; try lia.
          apply (Hok ltac:(lia) ltac:(cbn [cs]; lia) q b t eq_refl). lia. }
        cbn beta. intros x H1. eapply step_eq; [exact H1|].
        replace (n - c) with 0 by lia. cbn [repeat]. now rewrite app_nil_r.
Qed.

Lemma push_back_empty_spec (s : st) :
  good cat s ->
  wp (push_back_empty s)
     (fun x => step cat managed s (fst x) (flat s ++ [None]) [] [] /\ at_pos (fst x) (snd x) (cs s)).
Proof.
  intros Hg. unfold push_back_empty.
  pose proof (append_empty_spec cat managed s 1 Hg ltac:(lia)) as Ha.
  apply wp_ok in Ha as ((s' & k) & E1 & H1 & H2). rewrite E1. cbn [bind wp fst snd] in *.
  split; [exact H1|]. destruct k; exact H2.
Qed.

(** What a range set can leave undone: equal neighbours (finding M4) and objects
    that are dropped without being deleted (finding M3). *)
Definition range_merge_miss (s : st) (pos n c : nat) : Prop :=
  exists q b1 m b2 t, bl s = q ++ b1 :: m ++ b2 :: t /\
    tot q <= pos < tot q + bs b1 /\ bcat b1 = Some c /\
    pos + n = tot q + bs b1 + tot m + bs b2 /\
    match t with x :: _ => bcat x = Some c | [] => False end.

Definition range_leak (s : st) (pos n c : nat) : Prop :=
  exists q b1 m b2 t e, bl s = q ++ b1 :: m ++ b2 :: t /\
    tot q <= pos < tot q + bs b1 /\ bcat b1 = Some c /\
    tot q + bs b1 + tot m < pos + n /\ pos + n < tot q + bs b1 + tot m + bs b2 /\
    bd b2 = Some e /\ ecat e <> c /\ managed (ecat e) = true.

(** The front part of a block of another type, overwritten without events (finding M8). *)
Definition range_silent (s : st) (pos n c : nat) : Prop :=
  exists q b t e, bl s = q ++ b :: t /\ pos = tot q /\ pos + n < tot q + bs b /\
    bd b = Some e /\ ecat e <> c.

Definition range_post (s s' : st) (pos : nat) (v0 : V) (vs : list V) : Prop :=
  let n := S (length vs) in
  good cat s' /\ flat s' = splice pos n (map Some (v0 :: vs)) (flat s) /\
  (canon s -> ~ range_merge_miss s pos n (cat v0) -> canon s') /\ tag s' = tag s /\
  (~ range_leak s pos n (cat v0) ->
   forall p, cnt p (freed s') + cnt p (mo managed (bl s'))
     = cnt p (freed s) + cnt p (mo managed (bl s)) + cnt p (own managed (cat v0) (v0 :: vs))) /\
  (~ range_silent s pos n (cat v0) -> events s s').

Lemma step0_range (s s' : st) pos v0 vs :
  step0 cat managed s s' (splice pos (S (length vs)) (map Some (v0 :: vs)) (flat s))
    (own managed (cat v0) (v0 :: vs)) [] ->
  (~ range_silent s pos (S (length vs)) (cat v0) -> events s s') -> range_post s s' pos v0 vs.
Proof.
  intros (H1 & H2 & H3 & H4 & H5) H6. split; [exact H1|]. split; [exact H2|].
  split; [intros H _; auto|]. split; [exact H4|]. split; [|exact H6].
  intros _ p. specialize (H5 p). cbn [cnt] in H5. lia.
Qed.

Lemma set_range_spec (s : st) h pos v0 vs :
  good cat s -> pos + length vs < cs s -> all_cat cat (cat v0) vs = true ->
  wp (set_range cat managed h pos (v0 :: vs) s)
     (fun x => range_post s (fst x) pos v0 vs /\ at_pos (fst x) (snd x) pos).
Proof.
  intros Hg H2 Hv. destruct s as [l c n g a r f]. pose proof Hg as (Hw & Hc & _). cbn [bl cs] in *.
  unfold set_range. cbn [length]. replace (pos + S (length vs) - 1) with (pos + length vs) by lia. cbn [cs].
  destruct (Nat.leb_spec c (pos + length vs)); [lia|].
  assert (forall q b t, l = q ++ b :: t -> tot q <= pos < tot q + bs b ->
    (match h with None => locate None pos (ST l c n g a r f)
     | Some h => block_pos_hint h pos (ST l c n g a r f) end) = Ok (length q)) as Hloc.
  { intros q b t E H5. subst l. destruct h as [h|].
    - apply (block_pos_hint_spec cat); auto.
    - apply (locate_spec cat); auto. }
  destruct (find_two 0 l pos (pos + length vs) Hw ltac:(lia) ltac:(lia) ltac:(lia))
    as [(q & b & t & E & H3 & H4)|(q & b & m & b2 & t & E & H3 & H4 & H5 & H6)]; cbn [Nat.add] in *.
  - rewrite (Hloc q b t E ltac:(lia)). clear Hloc. subst l. cbn [bind].
    unfold set_cells_impl.
    pose proof (block_pos_spec cat q [] b t c n g a r f (pos + length vs)) as B. rewrite app_nil_r in B.
    rewrite B by (auto; lia). cbn [bind]. unfold nblk. cbn [bl].
    destruct (Nat.eqb_spec (length q) (length (q ++ b :: t))) as [E|_];
      [rewrite app_length in E; simpl in E; lia|].
    rewrite Nat.eqb_refl.
    pose proof (set_cells_single_spec cat managed q b t c n g a r f pos v0 vs Hg H3 ltac:(lia) Hv) as Hs.
    replace (pos + S (length vs) - 1) with (pos + length vs) in Hs by lia.
    eapply wp_mono; [exact Hs|]. cbn beta. intros x (H1 & H1' & H1''). split; [|exact H1'].
    apply step0_range; [exact H1|]. intros Hsil. apply H1''. intros e E1 E2 E3.
    destruct (Nat.eq_dec (pos + S (length vs)) (tot q + bs b)) as [E4|E4]; [exact E4|].
    exfalso. apply Hsil. exists q, b, t, e. repeat split; auto; lia.
  - rewrite (Hloc q b (m ++ b2 :: t) E ltac:(lia)). clear Hloc. subst l. cbn [bind].
    unfold set_cells_impl.
    assert (length (q ++ b :: m ++ b2 :: t) = S (S (length m + length q)) + length t) as El
      by (rewrite app_length; simpl; rewrite app_length; simpl; lia).
    assert (q ++ b :: m ++ b2 :: t = (q ++ b :: m) ++ b2 :: t) as E by (rewrite <- app_assoc; reflexivity).
    pose proof (block_pos_spec cat q (b :: m) b2 t c n g a r f (pos + length vs)) as B. rewrite <- E in B.
    rewrite B; cbn [bl]; [|auto|lia|rewrite tot_app; cbn [tot]; lia].
    cbn [bind]. unfold nblk. cbn [bl].
    replace (length (q ++ b :: m)) with (S (length m + length q)) by (rewrite app_length; simpl; lia).
    destruct (Nat.eqb_spec (S (length m + length q)) (length (q ++ b :: m ++ b2 :: t))) as [E1|_]; [lia|].
    destruct (Nat.eqb_spec (length q) (S (length m + length q))) as [E1|_]; [lia|].
    unfold set_cells_multi, data_at, bat. cbn [bl]. rewrite nth_error_app_mid. cbn [deref bind].
    destruct (ceqb (dcat (bd b)) (Some (cat v0))) eqn:Ec.
    + apply ceqb_true in Ec.
      eapply wp_mono; [apply (set_cells_multi_eq_spec cat managed); eauto; lia|].
      cbn beta. intros x ((R1 & R2 & R3 & R4 & R5) & H1' & R6). split; [|exact H1'].
      pose proof Hw as Hw'. rewrite E in Hw'. apply wfl_bp in Hw'. rewrite tot_app in Hw'. cbn [tot] in Hw'.
      split; [exact R1|]. split; [exact R2|]. split.
      { intros Hcan Hmiss. apply R3; [exact Hcan|]. intros [X1 X2]. apply Hmiss.
        exists q, b, m, b2, t. cbn [bl]. repeat split; auto; try lia. }
      split; [exact R4|]. split; [|auto]. intros Hleak p. specialize (R5 p).
      assert (leaked managed (cat v0) b2 (S (pos + length vs)) = []) as EL.
      { unfold leaked. destruct (bd b2) as [e|] eqn:Ed; [|reflexivity].
        destruct (Nat.eqb_spec (ecat e) (cat v0)) as [E1|E1]; [reflexivity|].
        destruct (Nat.eqb_spec (bp b2 + bs b2) (S (pos + length vs))) as [E2|E2]; [reflexivity|].
        cbn [orb]. apply own_unmanaged. destruct (managed (ecat e)) eqn:Em; [|reflexivity].
        exfalso. apply Hleak. exists q, b, m, b2, t, e. cbn [bl]. repeat split; auto; lia. }
      rewrite EL in R5. cbn [cnt] in R5. lia.
    + apply ceqb_false in Ec.
      eapply wp_mono; [apply (set_cells_multi_ne_spec cat managed); eauto; lia|].
      cbn beta. intros x [[H1 H1''] H1']. split; [|exact H1']. now apply step0_range.
Qed.

End P.
