(** Which element blocks a call can leave in a container: those it held before and
    those the call itself allocated.  Proved for every modelled call, on every
    state; used for copy-on-write (MtvCow*.v). *)
From Coq Require Import List ZArith Lia Bool.
From Verif Require Import Base MtvModel MtvModel2 MtvSpec.
Import ListNotations.
Open Scope nat_scope.

Section Ids.
Context {V : Type}.
Variable cat : V -> nat.
Variable managed : nat -> bool.
Notation eblk := (@eblk V).
Notation blk := (@blk V).
Notation st := (@st V).

(** Allowed addresses; every address with the tag [t0] is allowed. *)
Variable U : nat * nat -> Prop.
Variable t0 : nat.
Hypothesis HU : forall n, U (t0, n).

Definition Kb (b : blk) : Prop := match bd b with Some e => U (eid e) | None => True end.
Definition K (s : st) : Prop := Forall Kb (bl s) /\ tag s = t0.

Class Kp (A : Type) := kp : A -> Prop.
Instance Kp_st : Kp st := K.
Instance Kp_eblk : Kp eblk := fun e => U (eid e).
Instance Kp_blk : Kp blk := Kb.
Instance Kp_nat : Kp nat := fun _ => True.
Instance Kp_bool : Kp bool := fun _ => True.
Instance Kp_V : Kp V := fun _ => True.
Instance Kp_list {A} : Kp (list A) := fun _ => True.
Instance Kp_option {A} `{Kp A} : Kp (option A) :=
  fun o => match o with Some a => kp a | None => True end.
Instance Kp_prod {A B} `{Kp A} `{Kp B} : Kp (A * B) := fun p => kp (fst p) /\ kp (snd p).

Definition okK {A} `{Kp A} (m : res A) : Prop :=
  match m with Ok a => kp a | _ => True end.

Lemma bind_K {A B} `{Kp A} `{Kp B} (m : res A) (f : A -> res B) :
  okK m -> (forall a, kp a -> okK (f a)) -> okK (bind m f).
Proof. destruct m; cbn; auto. Qed.
Lemma ok_K {A} `{Kp A} (a : A) : kp a -> okK (Ok a).
Proof. auto. Qed.
Lemma throw_K {A} `{Kp A} e : okK (@Throw A e).
Proof. exact I. Qed.
Lemma undef_K {A} `{Kp A} : okK (@Undef A).
Proof. exact I. Qed.
Lemma deref_K {A} `{Kp A} (o : option A) : kp o -> okK (deref o).
Proof. destruct o; cbn; auto. Qed.

Lemma Forall_set_nth {A} (P : A -> Prop) i a l : Forall P l -> P a -> Forall P (set_nth i a l).
Proof.
  intros Hl Ha. revert i. induction Hl as [|x l Hx Hl IH]; intros [|i]; cbn; auto.
Qed.
Lemma Forall_firstn {A} (P : A -> Prop) n l : Forall P l -> Forall P (firstn n l).
Proof. intros H. revert n. induction H; intros [|n]; cbn; auto. Qed.
Lemma Forall_skipn {A} (P : A -> Prop) n l : Forall P l -> Forall P (skipn n l).
Proof. intros H. revert n. induction H; intros [|n]; cbn; auto. Qed.
Lemma Forall_nth_error {A} (P : A -> Prop) n l x : Forall P l -> nth_error l n = Some x -> P x.
Proof. intros H E. rewrite Forall_forall in H. apply H. eapply nth_error_In; eauto. Qed.

Lemma bat_K i (s : st) : K s -> okK (bat i s).
Proof.
  intros [H _]. unfold bat. destruct (nth_error (bl s) i) as [b|] eqn:E; cbn; [|exact I].
  eapply Forall_nth_error; eauto.
Qed.
Lemma pos_at_K i (s : st) : okK (pos_at i s).
Proof. unfold pos_at. destruct (bat i s); cbn; exact I. Qed.
Lemma size_at_K i (s : st) : okK (size_at i s).
Proof. unfold size_at. destruct (bat i s); cbn; exact I. Qed.
Lemma data_at_K i (s : st) : K s -> okK (data_at i s).
Proof.
  intros H. pose proof (bat_K i s H). unfold data_at. destruct (bat i s) as [b| |]; cbn in *; auto.
Qed.
Lemma edata_K i (s : st) : K s -> okK (edata i s).
Proof.
  intros H. pose proof (data_at_K i s H). unfold edata. destruct (data_at i s) as [[e|]| |]; cbn in *; auto.
Qed.
Lemma with_bl_K l (s : st) : K s -> Forall Kb l -> K (with_bl l s).
Proof. intros [H1 H2] H. split; auto. Qed.
Lemma set_pos_K i p (s : st) : K s -> okK (set_pos i p s).
Proof.
  intros H. pose proof (bat_K i s H) as Hb. unfold set_pos. destruct (bat i s) as [b| |]; cbn in *; auto.
  apply with_bl_K; [exact H|]. apply Forall_set_nth; [apply H|exact Hb].
Qed.
Lemma set_size_K i p (s : st) : K s -> okK (set_size i p s).
Proof.
  intros H. pose proof (bat_K i s H) as Hb. unfold set_size. destruct (bat i s) as [b| |]; cbn in *; auto.
  apply with_bl_K; [exact H|]. apply Forall_set_nth; [apply H|exact Hb].
Qed.
Lemma set_data_K i d (s : st) : K s -> kp d -> okK (set_data i d s).
Proof.
  intros H Hd. unfold set_data. destruct (bat i s) as [b| |]; cbn in *; auto.
  apply with_bl_K; [exact H|]. apply Forall_set_nth; [apply H|exact Hd].
Qed.
Lemma ins_K i b (s : st) : K s -> Kb b -> okK (ins i b s).
Proof.
  intros H Hb. unfold ins. destruct (i <=? nblk s); [|exact I]. apply with_bl_K; [exact H|].
  unfold insert_at. apply Forall_app. split; [apply Forall_firstn, H|].
  constructor; [exact Hb|apply Forall_skipn, H].
Qed.
Lemma ins_n_K i n (s : st) : K s -> okK (ins_n i n s).
Proof.
  intros H. unfold ins_n. destruct (i <=? nblk s); [|exact I]. apply with_bl_K; [exact H|].
  apply Forall_app. split; [apply Forall_firstn, H|]. apply Forall_app.
  split; [|apply Forall_skipn, H]. induction n; cbn; constructor; auto. exact I.
Qed.
Lemma push_blk_K b (s : st) : K s -> Kb b -> K (push_blk b s).
Proof.
  intros H Hb. apply with_bl_K; [exact H|]. apply Forall_app. split; [apply H|]. auto.
Qed.
Lemma del_K i n (s : st) : K s -> okK (del i n s).
Proof.
  intros H. unfold del. destruct (i + n <=? nblk s); [|exact I]. apply with_bl_K; [exact H|].
  apply Forall_app. split; [apply Forall_firstn, H|apply Forall_skipn, H].
Qed.
Lemma swap_blk_K i j (s : st) : K s -> okK (swap_blk i j s).
Proof.
  intros H. pose proof (bat_K i s H) as Hi. pose proof (bat_K j s H) as Hj. unfold swap_blk.
  destruct (bat i s) as [a| |]; cbn in *; auto. destruct (bat j s) as [b| |]; cbn in *; auto.
  apply with_bl_K; [exact H|]. apply Forall_set_nth; [apply Forall_set_nth; [apply H|exact Hj]|exact Hi].
Qed.
Lemma shift_K (f : blk -> blk) l : (forall b, bd (f b) = bd b) -> Forall Kb l -> Forall Kb (map f l).
Proof.
  intros Hf H. induction H as [|x l Hx Hl IH]; cbn; constructor; auto. unfold Kb. now rewrite Hf.
Qed.
Lemma adj_up_K i d (s : st) : K s -> okK (adj_up i d s).
Proof.
  intros H. apply with_bl_K; [exact H|]. apply Forall_app. split; [apply Forall_firstn, H|].
  apply shift_K; [reflexivity|apply Forall_skipn, H].
Qed.
Lemma adj_dn_K i d (s : st) : K s -> okK (adj_dn i d s).
Proof.
  intros H. unfold adj_dn. destruct (forallb _ _); [|exact I]. apply with_bl_K; [exact H|].
  apply Forall_app. split; [apply Forall_firstn, H|]. apply shift_K; [reflexivity|apply Forall_skipn, H].
Qed.
Lemma with_cs_K n (s : st) : K s -> K (with_cs n s).
Proof. intros [H1 H2]. split; auto. Qed.
Lemma ev_acq_K e (s : st) : K s -> K (ev_acq e s).
Proof. intros [H1 H2]. split; auto. Qed.
Lemma ev_rel_K e (s : st) : K s -> K (ev_rel e s).
Proof. intros [H1 H2]. split; auto. Qed.
Lemma destroy_K e (s : st) : K s -> K (destroy managed e s).
Proof. intros [H1 H2]. split; auto. Qed.
Lemma fresh_K c (s : st) : K s -> kp (fresh c s).
Proof. intros [H1 H2]. split; cbn; [rewrite H2; apply HU|split; auto]. Qed.
Lemma overwrite_K b i n (s : st) : K s -> okK (overwrite managed b i n s).
Proof.
  intros [H1 H2]. unfold overwrite, overwrite_e. destruct (edata b s); cbn; auto.
  destruct (_ || _); cbn; auto. split; auto.
Qed.

(** The functions on blocks keep the address. *)
Lemma e_append_K vs e : kp e -> okK (e_append cat vs e).
Proof. intros H. unfold e_append. destruct (all_cat _ _ _); cbn; auto. Qed.
Lemma e_prepend_K vs e : kp e -> okK (e_prepend cat vs e).
Proof. intros H. unfold e_prepend. destruct (all_cat _ _ _); cbn; auto. Qed.
Lemma e_assign_K vs e : kp e -> okK (e_assign cat vs e).
Proof. intros H. unfold e_assign. destruct (all_cat _ _ _); cbn; auto. Qed.
Lemma e_insert_K i vs e : kp e -> okK (e_insert cat i vs e).
Proof. intros H. unfold e_insert. destruct (_ && _); cbn; auto. Qed.
Lemma e_set_K i vs e : kp e -> okK (e_set cat i vs e).
Proof. intros H. unfold e_set. destruct (_ && _); cbn; auto. Qed.
Lemma e_erase_K i n (e : eblk) : kp e -> okK (e_erase i n e).
Proof. intros H. unfold e_erase. destruct (_ <=? _); cbn; auto. Qed.
Lemma e_resize_K n (e : eblk) : kp e -> okK (e_resize n e).
Proof. intros H. unfold e_resize. destruct (_ <=? _); cbn; auto. Qed.
Lemma e_append_block_K (src e : eblk) : kp e -> okK (e_append_block src e).
Proof. intros H. unfold e_append_block. destruct (_ =? _); cbn; auto. Qed.
Lemma e_append_from_K (src : eblk) i n e : kp e -> okK (e_append_from src i n e).
Proof.
  intros H. unfold e_append_from. destruct (_ =? _); cbn; auto. destruct (e_slice _ _ _); cbn; auto.
Qed.
Lemma e_assign_from_K (src : eblk) i n e : kp e -> okK (e_assign_from src i n e).
Proof.
  intros H. unfold e_assign_from. destruct (_ =? _); cbn; auto. destruct (e_slice _ _ _); cbn; auto.
Qed.
Lemma e_prepend_from_K (src : eblk) i n e : kp e -> okK (e_prepend_from src i n e).
Proof.
  intros H. unfold e_prepend_from. destruct (_ =? _); cbn; auto. destruct (e_slice _ _ _); cbn; auto.
Qed.

Create HintDb kdb discriminated.
Hint Resolve e_append_K e_prepend_K e_assign_K e_insert_K e_set_K e_erase_K e_resize_K
  e_append_block_K e_append_from_K e_assign_from_K e_prepend_from_K : kdb.

Lemma on_K i f (s : st) : K s -> (forall e, kp e -> okK (f e)) -> okK (on i f s).
Proof.
  intros H Hf. unfold on. apply bind_K; [now apply edata_K|]. intros e He.
  apply bind_K; [now apply Hf|]. intros e' He'. now apply set_data_K.
Qed.

Hint Resolve bat_K pos_at_K size_at_K data_at_K edata_K set_pos_K set_size_K set_data_K ins_K ins_n_K
  push_blk_K del_K swap_blk_K adj_up_K adj_dn_K with_cs_K ev_acq_K ev_rel_K destroy_K overwrite_K
  on_K throw_K undef_K : kdb.
Hint Extern 0 (Kb (BK _ _ None)) => exact I : kdb.
Hint Extern 0 (kp (@None _)) => exact I : kdb.
Hint Extern 0 (@kp nat _ _) => exact I : kdb.
Hint Extern 0 (@kp bool _ _) => exact I : kdb.
Hint Extern 1 (@kp st _ _) => change (K _) : kdb.
Hint Extern 1 (kp (Some _)) => cbn [kp Kp_option] : kdb.

Ltac kclean :=
  repeat match goal with
  | H : @kp (_ * _) _ _ |- _ => destruct H
  | H : kp ?x |- _ => change (K x) in H
  | p : (_ * _)%type |- _ => destruct p
  end; cbn [fst snd] in *.
Ltac kgo :=
  match goal with
  | |- okK (bind _ _) => apply bind_K; [|intros ? ?; kclean]
  | |- okK (Ok _) => apply ok_K
  | |- kp (_, _) => split; cbn [fst snd]
  | |- okK (let (_, _) := fresh ?c ?s in _) =>
      let H := fresh "Hf" in
      assert (kp (MtvModel.fresh c s)) as H
        by (apply fresh_K; repeat match goal with |- K (match ?o with _ => _ end) => destruct o end;
            auto with kdb);
      destruct (MtvModel.fresh c s) as [? ?]; destruct H; kclean
  | |- okK (if ?b then _ else _) => destruct b
  | |- okK (match ?o with _ => _ end) => destruct o eqn:?
  | |- okK (let _ := _ in _) => cbv zeta
  | |- _ => solve [auto with kdb]
  | |- kp ?x => change (K x)
  | |- okK (_ (match ?o with _ => _ end)) => destruct o eqn:?
  | |- K (match ?o with _ => _ end) => destruct o eqn:?
  | |- K (_ _) => first [apply with_cs_K | apply destroy_K | apply ev_rel_K | apply ev_acq_K | apply push_blk_K]
  end.
Ltac kall := repeat kgo.

Lemma size_add_K i n (s : st) : K s -> okK (size_add i n s).
Proof. intros H. unfold size_add. kall. Qed.
Lemma size_sub_K i n (s : st) : K s -> okK (size_sub i n s).
Proof. intros H. unfold size_sub. kall. Qed.
Lemma pos_add_K i n (s : st) : K s -> okK (pos_add i n s).
Proof. intros H. unfold pos_add. kall. Qed.
Lemma pos_sub_K i n (s : st) : K s -> okK (pos_sub i n s).
Proof. intros H. unfold pos_sub. kall. Qed.
Lemma next_pos_K i (s : st) : okK (next_pos i s).
Proof. unfold next_pos. destruct (bat i s); cbn; auto. exact I. Qed.
Hint Resolve size_add_K size_sub_K pos_add_K pos_sub_K next_pos_K : kdb.
Lemma calc_pos_K i (s : st) : K s -> okK (calc_pos i s).
Proof. intros H. unfold calc_pos. kall. Qed.
Hint Resolve calc_pos_K : kdb.
Lemma is_prev_K i c (s : st) : okK (is_prev i c s).
Proof. destruct i; cbn; [exact I|]. destruct (data_at i s); exact I. Qed.
Lemma is_next_K i c (s : st) : okK (is_next i c s).
Proof. unfold is_next. destruct (_ =? _); [exact I|]. destruct (data_at (S i) s); exact I. Qed.
Hint Resolve is_prev_K is_next_K : kdb.
Lemma deb_K i (s : st) : K s -> okK (delete_element_block managed i s).
Proof. intros H. unfold delete_element_block. kall. Qed.
Hint Resolve deb_K : kdb.
Lemma debs_K n : forall i (s : st), K s -> okK (delete_element_blocks managed i n s).
Proof. induction n; intros i s H; cbn [delete_element_blocks]; kall. Qed.
Hint Resolve debs_K : kdb.
Lemma merge_next_K i (s : st) : K s -> okK (merge_next managed i s).
Proof. intros H. unfold merge_next. kall. Qed.
Hint Resolve merge_next_K : kdb.
Lemma to_middle_K i a n ow (s : st) : K s -> okK (to_middle managed i a n ow s).
Proof. intros H. unfold to_middle. kall. Qed.
Hint Resolve to_middle_K : kdb.

Lemma new_cell_K i v (s : st) : K s -> okK (new_cell cat managed i v s).
Proof. intros H. unfold new_cell. kall. Qed.
Lemma append_cell_K i v (s : st) : K s -> okK (append_cell cat i v s).
Proof. intros H. unfold append_cell. kall. Qed.
Hint Resolve new_cell_K append_cell_K : kdb.
Lemma set_cell_middle_K i k v (s : st) : K s -> okK (set_cell_middle cat managed i k v s).
Proof. intros H. unfold set_cell_middle. kall. Qed.
Lemma set_cell_top_K i v (s : st) : K s -> okK (set_cell_top cat managed i v s).
Proof. intros H. unfold set_cell_top. kall. Qed.
Lemma set_cell_bottom_K i v (s : st) : K s -> okK (set_cell_bottom cat managed i v s).
Proof. intros H. unfold set_cell_bottom. kall. Qed.
Hint Resolve set_cell_middle_K set_cell_top_K set_cell_bottom_K : kdb.
Lemma set_cell_empty_top_K k v (s : st) : K s -> okK (set_cell_empty_top cat managed k v s).
Proof. intros H. unfold set_cell_empty_top. kall. Qed.
Lemma set_cell_empty_join_K k v (s : st) : K s -> okK (set_cell_empty_join cat managed k v s).
Proof. intros H. unfold set_cell_empty_join. kall. Qed.
Hint Resolve set_cell_empty_top_K set_cell_empty_join_K : kdb.
Lemma set_cell_empty_K i k v (s : st) : K s -> okK (set_cell_empty cat managed i k v s).
Proof. intros H. unfold set_cell_empty. kall. Qed.
Lemma join_next_K i v (s : st) : K s -> okK (join_next cat managed i v s).
Proof. intros H. unfold join_next. kall. Qed.
Lemma join_prev_K i v (s : st) : K s -> okK (join_prev cat managed i v s).
Proof. intros H. unfold join_prev. kall. Qed.
Hint Resolve set_cell_empty_K join_next_K join_prev_K : kdb.
Lemma set_cell_size_one_K i v (s : st) : K s -> okK (set_cell_size_one cat managed i v s).
Proof. intros H. unfold set_cell_size_one. kall. Qed.
Lemma set_join_next_K i v (s : st) : K s -> okK (set_join_next cat managed i v s).
Proof. intros H. unfold set_join_next. kall. Qed.
Hint Resolve set_cell_size_one_K set_join_next_K : kdb.
Lemma set_impl_K pos i v (s : st) : K s -> okK (set_impl cat managed pos i v s).
Proof. intros H. unfold set_impl. kall. Qed.
Hint Resolve set_impl_K : kdb.
Lemma block_pos_K r i (s : st) : okK (block_pos r i s).
Proof. destruct (block_pos r i s); exact I. Qed.
Lemma block_pos_hint_K h r (s : st) : okK (block_pos_hint h r s).
Proof. destruct (block_pos_hint h r s); exact I. Qed.
Lemma locate_K h r (s : st) : okK (locate h r s).
Proof. destruct (locate h r s); exact I. Qed.
Hint Resolve block_pos_K block_pos_hint_K locate_K : kdb.
Lemma set_K h pos v (s : st) : K s -> okK (set cat managed h pos v s).
Proof. intros H. unfold set. kall. Qed.

Lemma set_whole_block_empty_K i ow (s : st) : K s -> okK (set_whole_block_empty managed i ow s).
Proof. intros H. unfold set_whole_block_empty. kall. Qed.
Hint Resolve set_whole_block_empty_K : kdb.
Lemma set_empty_single_K a b i ow (s : st) : K s -> okK (set_empty_single managed a b i ow s).
Proof. intros H. unfold set_empty_single. kall. Qed.
Lemma drop_blocks_K n : forall i ow (s : st), K s -> okK (drop_blocks managed i n ow s).
Proof. induction n; intros i ow s H; cbn [drop_blocks]; kall. Qed.
Hint Resolve set_empty_single_K drop_blocks_K : kdb.
Lemma set_empty_multi_K a b i j ow (s : st) : K s -> okK (set_empty_multi managed a b i j ow s).
Proof. intros H. unfold set_empty_multi. kall. Qed.
Hint Resolve set_empty_multi_K : kdb.
Lemma set_empty_impl_K a b i ow (s : st) : K s -> okK (set_empty_impl managed a b i ow s).
Proof. intros H. unfold set_empty_impl. kall. Qed.
Hint Resolve set_empty_impl_K : kdb.
Lemma set_empty_K h a b (s : st) : K s -> okK (set_empty managed h a b s).
Proof. intros H. unfold set_empty. kall. Qed.
Lemma release_range_K h a b (s : st) : K s -> okK (release_range managed h a b s).
Proof. intros H. unfold release_range. kall. Qed.
Lemma release_K h a (s : st) : K s -> okK (release managed h a s).
Proof.
  intros H. unfold release. kall. apply deref_K. destruct (nth_error _ _); exact I.
Qed.
Lemma release_all_K (s : st) : K s -> K (release_all s).
Proof. intros [H1 H2]. split; cbn; auto. Qed.
Lemma clear_K (s : st) : K s -> okK (clear managed s).
Proof. intros H. unfold clear. kall. apply with_bl_K; auto. Qed.
Hint Resolve clear_K : kdb.
Lemma erase_single_K a b i (s : st) : K s -> okK (erase_single managed a b i s).
Proof. intros H. unfold erase_single. kall. Qed.
Lemma erase_multi_K a b i j (s : st) : K s -> okK (erase_multi managed a b i j s).
Proof. intros H. unfold erase_multi. kall. Qed.
Hint Resolve erase_single_K erase_multi_K : kdb.
Lemma erase_K a b (s : st) : K s -> okK (erase managed a b s).
Proof. intros H. unfold erase, erase_impl. kall. Qed.
Lemma insert_empty_impl_K p i n (s : st) : K s -> okK (insert_empty_impl p i n s).
Proof. intros H. unfold insert_empty_impl. kall. Qed.
Hint Resolve insert_empty_impl_K : kdb.
Lemma insert_empty_K h p n (s : st) : K s -> okK (insert_empty h p n s).
Proof. intros H. unfold insert_empty. kall. Qed.
Lemma insert_middle_K r i c vs (s : st) : K s -> okK (insert_cells_to_middle cat r i c vs s).
Proof. intros H. unfold insert_cells_to_middle. kall. Qed.
Hint Resolve insert_middle_K : kdb.
Lemma insert_cells_impl_K r i vs (s : st) : K s -> okK (insert_cells_impl cat r i vs s).
Proof. intros H. unfold insert_cells_impl. kall. Qed.
Hint Resolve insert_cells_impl_K : kdb.
Lemma insert_K h p vs (s : st) : K s -> okK (insert cat h p vs s).
Proof. intros H. unfold insert. kall. Qed.
Lemma push_back_K v (s : st) : K s -> okK (push_back cat managed v s).
Proof. intros H. unfold push_back. kall. Qed.
Lemma append_empty_K n (s : st) : K s -> okK (append_empty n s).
Proof. intros H. unfold append_empty. kall. Qed.
Hint Resolve append_empty_K : kdb.
Lemma push_back_empty_K (s : st) : K s -> okK (push_back_empty s).
Proof. intros H. unfold push_back_empty. kall. Qed.
Lemma resize_down_K n i (s : st) : K s -> okK (resize_down managed n i s).
Proof. intros H. unfold resize_down. kall. Qed.
Hint Resolve resize_down_K : kdb.
Lemma resize_K n (s : st) : K s -> okK (resize managed n s).
Proof. intros H. unfold resize. kall. Qed.
Lemma append_to_prev_K i c n vs (s : st) : K s -> okK (append_to_prev cat i c n vs s).
Proof. intros H. unfold append_to_prev. kall. Qed.
Lemma new_values_K i c vs (s : st) : K s -> okK (new_values cat i c vs s).
Proof. intros H. unfold new_values. kall. Qed.
Hint Resolve append_to_prev_K new_values_K : kdb.
Lemma set_cells_single_K a b i c vs (s : st) : K s -> okK (set_cells_single cat managed a b i c vs s).
Proof. intros H. unfold set_cells_single. kall. Qed.
Lemma set_cells_ne_K a b i j c vs (s : st) : K s -> okK (set_cells_multi_non_equal cat managed a b i j c vs s).
Proof. intros H. unfold set_cells_multi_non_equal. kall. Qed.
Lemma set_cells_eq_K a b i j c vs (s : st) : K s -> okK (set_cells_multi_equal cat managed a b i j c vs s).
Proof. intros H. unfold set_cells_multi_equal. kall. Qed.
Hint Resolve set_cells_single_K set_cells_ne_K set_cells_eq_K : kdb.
Lemma set_range_K h p vs (s : st) : K s -> okK (set_range cat managed h p vs s).
Proof.
  intros H. unfold set_range, set_cells_impl, set_cells_multi. kall.
Qed.
Hint Resolve set_K set_range_K set_empty_K release_range_K release_K release_all_K erase_K insert_K insert_empty_K
  push_back_K push_back_empty_K resize_K : kdb.

Lemma drop_K {A B} `{Kp A} `{Kp B} (m : res (A * B)) : okK m -> okK (drop_it m).
Proof. unfold drop_it. destruct m as [[a b]| |]; cbn; auto. intros []; auto. Qed.

(** Every call leaves only blocks it found or allocated. *)
Lemma exec_K o (s s' : st) : K s -> exec cat managed o s = Ok s' -> K s'.
Proof.
  intros H E. assert (okK (exec cat managed o s)) as Hk.
  { destruct o; cbn [exec]; repeat apply drop_K; kall. }
  rewrite E in Hk. exact Hk.
Qed.
End Ids.
