(** Tactics for the multi_type_vector proofs. *)
From Coq Require Import List ZArith Lia Bool.
From Verif Require Import Base MtvModel MtvProofs.
Import ListNotations.

(* [n] minus [length q], written so that adding [length q] again is a conversion *)
Ltac offset q n :=
  lazymatch n with
  | length q => constr:(O)
  | S ?m => let k := offset q m in constr:(S k)
  | ?a + length q => a
  | ?a + ?b => let k := offset q a in constr:(k + b)
  | _ => constr:(O)
  end.

Ltac off1 :=
  match goal with
  | |- context [shift_up ?d (BK ?p ?z ?e :: ?l)] =>
      change (shift_up d (BK p z e :: l)) with (BK (p + d) z e :: shift_up d l)
  | |- context [shift_dn ?d (BK ?p ?z ?e :: ?l)] =>
      change (shift_dn d (BK p z e :: l)) with (BK (p - d) z e :: shift_dn d l)
  | |- context [@shift_up ?V ?d []] => change (@shift_up V d []) with (@nil (@blk V))
  | |- context [@shift_dn ?V ?d []] => change (@shift_dn V d []) with (@nil (@blk V))
  | |- context [@firstn ?A O ?l] => change (@firstn A O l) with (@nil A)
  | |- context [@skipn ?A O ?l] => change (@skipn A O l) with l
  | |- context [@firstn ?A (S ?k) (?x :: ?l)] =>
      change (@firstn A (S k) (x :: l)) with (x :: firstn k l)
  | |- context [@skipn ?A (S ?k) (?x :: ?l)] =>
      change (@skipn A (S k) (x :: l)) with (skipn k l)
  | |- context [firstn (length ?q) ?q] => rewrite (firstn_all q)
  | |- context [skipn (length ?q) ?q] => rewrite (skipn_all q)
  | |- context [nth_error (?x :: ?l) O] => change (nth_error (x :: l) O) with (Some x)
  | |- context [nth_error (?x :: ?l) (S ?k)] =>
      change (nth_error (x :: l) (S k)) with (nth_error l k)
  | |- context [@nth_error ?A [] O] => change (@nth_error A [] O) with (@None A)
  | |- context [set_nth O ?y (?x :: ?l)] => change (set_nth O y (x :: l)) with (y :: l)
  | |- context [set_nth (S ?k) ?y (?x :: ?l)] =>
      change (set_nth (S k) y (x :: l)) with (x :: set_nth k y l)
  | |- context [length (?q ++ ?x :: ?l) - 1] =>
      let k := eval cbn [length] in (length l) in
      replace (length (q ++ x :: l) - 1) with (k + length q)
        by (rewrite app_length; cbn [length]; lia); cbn [Nat.add]
  | |- context [nth_error (?q ++ ?l) ?i] =>
      let k := offset q i in
      change (nth_error (q ++ l) i) with (nth_error (q ++ l) (k + length q)); rewrite (nth_off q l k)
  | |- context [set_nth ?i ?x (?q ++ ?l)] =>
      let k := offset q i in
      change (set_nth i x (q ++ l)) with (set_nth (k + length q) x (q ++ l)); rewrite (set_off q l k x)
  | |- context [firstn ?i (?q ++ ?l)] =>
      let k := offset q i in
      first [change (firstn i (q ++ l)) with (firstn (k + length q) (q ++ l)) | replace i with (k + length q) by lia]; rewrite (firstn_off q l k)
  | |- context [skipn ?i (?q ++ ?l)] =>
      let k := offset q i in
      first [change (skipn i (q ++ l)) with (skipn (k + length q) (q ++ l)) | replace i with (k + length q) by lia]; rewrite (skipn_off q l k)
  end.

Ltac lens :=
  rewrite ?app_length, ?firstn_length, ?skipn_length, ?map_length, ?repeat_length, ?len_up, ?len_dn;
  cbn [length];
  rewrite ?app_length, ?firstn_length, ?skipn_length, ?map_length, ?repeat_length, ?len_up, ?len_dn;
  cbn [length].

Ltac cats :=
  repeat match goal with
  | |- all_cat _ _ (_ ++ _) = true => rewrite all_cat_app; apply andb_true_iff; split
  | |- all_cat _ _ (firstn _ _) = true => apply all_cat_firstn
  | |- all_cat _ _ (skipn _ _) = true => apply all_cat_skipn
  | H : all_cat _ ?c ?l = true |- all_cat _ ?c ?l = true => exact H
  | |- all_cat _ _ [] = true => reflexivity
  | |- all_cat _ _ (_ :: _) = true =>
      rewrite all_cat_cons; apply andb_true_iff; split; [apply Nat.eqb_eq; congruence|]
  | H : all_cat _ ?c ?l = true |- all_cat _ ?c' ?l = true => replace c' with c by congruence; exact H
  end.

(* arithmetic, without the hypotheses that slow lia down *)
Ltac alia :=
  repeat match goal with
  | H : all_cat _ _ _ = true |- _ => clear H
  | H : chain _ _ |- _ => clear H
  | H : wfl _ _ _ |- _ => clear H
  | H : Ree _ _ |- _ => clear H
  | H : Rne _ _ |- _ => clear H
  | H : @eq bool _ _ |- _ => clear H
  | H : good _ _ |- _ => clear H
  end;
  repeat match goal with
  | H : context [tot (_ ++ _)] |- _ => rewrite tot_app in H
  | H : context [tot (_ :: _)] |- _ => progress (cbn [tot bs] in H)
  | H : context [tot []] |- _ => progress (cbn [tot] in H)
  end;
  rewrite ?tot_app; cbn [tot bs]; lens; lia.

(* solve a boolean equation *)
Ltac bsolve0 :=
  lazymatch goal with
  | |- (_ =? _) = true => apply Nat.eqb_eq; alia
  | |- (_ =? _) = false => apply Nat.eqb_neq; alia
  | |- (_ <? _) = true => apply Nat.ltb_lt; alia
  | |- (_ <? _) = false => apply Nat.ltb_ge; alia
  | |- (_ <=? _) = true => apply Nat.leb_le; alia
  | |- (_ <=? _) = false => apply Nat.leb_gt; alia
  | |- (_ && _) = true => apply andb_true_intro; split; bsolve0
  | |- (_ && _) = false => apply andb_false_iff; first [left; bsolve0 | right; bsolve0]
  | |- (_ || _) = true => apply orb_true_iff; first [left; bsolve0 | right; bsolve0]
  | |- (_ || _) = false => apply orb_false_iff; split; bsolve0
  | |- negb _ = true => apply negb_true_iff; bsolve0
  | |- negb _ = false => apply negb_false_iff; bsolve0
  | |- all_cat _ _ _ = true => solve [cats]
  | |- ceqb _ _ = true => apply ceqb_true; first [reflexivity | f_equal; alia | congruence]
  | |- ceqb _ _ = false => apply ceqb_false; first [discriminate | congruence]
  | |- forallb _ [] = true => reflexivity
  | |- forallb _ (_ :: _) = true => cbn [forallb bp]; apply andb_true_intro; split; bsolve0
  | H : wfl ?c ?P ?t |- forallb _ ?t = true => eapply dn_ok; [|exact H]; alia
  | |- ?x = ?x => reflexivity
  | H : ?x = ?y |- ?x = ?y => exact H
  | |- match ?x with _ => _ end = _ => cbn iota; bsolve0
  end.
Ltac bsolve := unfold nblk; cbn [bl cs length ev ecat bs bp bd dcat option_map negb]; bsolve0.

Ltac decide_one :=
  match goal with
  | |- context [if ?c then _ else _] =>
      first [ assert (c = true) as -> by bsolve
            | assert (c = false) as -> by bsolve ]
  end.

Ltac pcbn :=
  cbv beta iota zeta delta
      [bat pos_at size_at data_at edata set_pos set_size set_data pos_add pos_sub
       size_add size_sub ins ins_n ins_l push_blk del next_pos calc_pos swap_blk
       with_bl with_cs ev_acq ev_rel destroy fresh with_ev
       e_append e_prepend e_assign e_insert e_set e_erase e_resize e_slice e_append_block
       e_append_from e_assign_from e_prepend_from on overwrite_e overwrite dcat option_map
       delete_element_block is_prev is_next adj_up adj_dn insert_at nblk
       bl cs nid tag acq rel freed bp bs bd eid ecat ev];
  cbn [bind deref ceqb pred app repeat fst snd Nat.add].

(* evaluate a primitive; goal  m = ?r *)
Ltac pe :=
  repeat first [ progress pcbn | off1 | decide_one | progress rewrite ?Nat.add_0_r | progress rewrite <- ?app_assoc ];
  reflexivity.

Ltac bprop :=
  repeat match goal with
  | H : (_ =? _) = true |- _ => apply Nat.eqb_eq in H
  | H : (_ =? _) = false |- _ => apply Nat.eqb_neq in H
  | H : (_ <? _) = true |- _ => apply Nat.ltb_lt in H
  | H : (_ <? _) = false |- _ => apply Nat.ltb_ge in H
  | H : (_ <=? _) = true |- _ => apply Nat.leb_le in H
  | H : (_ <=? _) = false |- _ => apply Nat.leb_gt in H
  | H : negb _ = true |- _ => apply negb_true_iff in H
  | H : negb _ = false |- _ => apply negb_false_iff in H
  | H : _ && _ = true |- _ => apply andb_true_iff in H; destruct H
  | H : _ || _ = false |- _ => apply orb_false_iff in H; destruct H
  | H : ceqb _ _ = true |- _ => apply ceqb_true in H
  | H : Some _ = Some _ |- _ => injection H as H
  | H : Some ?a <> Some ?b |- _ => assert (a <> b) by congruence; clear H
  | H : ceqb _ _ = false |- _ => apply ceqb_false in H
  end.

Ltac dest_all :=
  repeat match goal with
  | H : _ /\ _ |- _ => destruct H
  | H : exists _, _ |- _ => destruct H
  | H : True |- _ => clear H
  end.

(* break a chain *)
Ltac chain_norm :=
  repeat progress (rewrite ?map_app, <- ?app_assoc, ?map_cons, ?bcat_up, ?bcat_dn, ?bcat_some, ?bcat_none);
  change (map (@bcat _) []) with (@nil (option nat));
  cbn [app];
  repeat match goal with
  | |- context [chain ?R (?q ++ ?a :: ?l)] =>
      lazymatch l with [] => fail | _ => rewrite (chain_mid R q a l) end
  | |- context [chain ?R (?b :: ?q ++ ?a :: ?l)] =>
      lazymatch l with [] => fail | _ => rewrite (chain_mid2 R b q a l) end
  | |- context [chain ?R (?a :: ?b :: ?l)] => rewrite (chain_cons R a b l)
  end;
  rewrite ?chain_cons, ?chain_one.

Ltac chain_norm_in H :=
  repeat progress (rewrite ?map_app, <- ?app_assoc, ?map_cons, ?bcat_up, ?bcat_dn, ?bcat_some, ?bcat_none in H);
  change (map (@bcat _) []) with (@nil (option nat)) in H;
  cbn [app] in H;
  repeat match type of H with
  | context [chain ?R (?q ++ ?a :: ?l)] =>
      lazymatch l with [] => fail | _ => rewrite (chain_mid R q a l) in H end
  | context [chain ?R (?b :: ?q ++ ?a :: ?l)] =>
      lazymatch l with [] => fail | _ => rewrite (chain_mid2 R b q a l) in H end
  | context [chain ?R (?a :: ?b :: ?l)] => rewrite (chain_cons R a b l) in H
  | context [chain ?R [?a]] => change (chain R [a]) with True in H
  end.

Ltac open_chain H :=
  lazymatch type of H with
  | chain _ (map _ []) => clear H
  | chain _ [] => clear H
  | _ => chain_norm_in H
  end.

Ltac contra_ee :=
  exfalso;
  match goal with H : Ree None None |- _ => exact (H eq_refl eq_refl) end.

Ltac flat_lens :=
  repeat match goal with
  | H : wfl ?c ?P ?t |- _ =>
      lazymatch goal with
      | _ : length (flatl t) = tot t |- _ => fail
      | _ => pose proof (flatl_length c P t H)
      end
  end.

(* unpack the invariant *)
Ltac open_good H :=
  unfold good in H; cbn [bl cs] in H;
  let Hw := fresh "Hw" in let Hs := fresh "Hs" in let Hn := fresh "Hn" in
  destruct H as (Hw & Hs & Hn);
  repeat (progress (rewrite ?wfl_app, ?tot_app in Hw; cbn [wfl tot bp bs bd] in Hw));
  repeat (progress (rewrite ?tot_app in Hs; cbn [tot bs] in Hs));
  unfold okb, okd in Hw; cbn [bp bs bd ev ecat] in Hw;
  open_chain Hn;
  dest_all; flat_lens; subst; try (solve [contra_ee]).

(* closing *)

Ltac shrink :=
  repeat match goal with
  | |- context [@firstn ?T ?k ?l] =>
      first [ rewrite (@firstn_all2 T k l) by alia
            | let H := fresh in
              assert (@firstn T k l = []) as H by (replace k with 0 by alia; reflexivity);
              rewrite H; clear H ]
  | |- context [@skipn ?T ?k ?l] =>
      first [ rewrite (@skipn_all2 T k l) by alia
            | let H := fresh in
              assert (@skipn T k l = l) as H by (replace k with 0 by alia; reflexivity);
              rewrite H; clear H ]
  end.

Ltac rep_one :=
  match goal with
  | |- context [repeat ?x ?a ++ repeat ?x ?b] => rewrite <- (repeat_app x a b)
  | |- context [repeat ?x ?a ++ repeat ?x ?b ++ ?l] =>
      rewrite (app_assoc (repeat x a) (repeat x b) l), <- (repeat_app x a b)
  | |- context [repeat ?x ?a ++ [?x]] =>
      change [x] with (repeat x 1); rewrite <- (repeat_app x a 1)
  | |- context [repeat ?x ?a ++ ?x :: ?l] =>
      change (x :: l) with (repeat x 1 ++ l)
  | |- context [@repeat ?T ?x ?a] =>
      let H := fresh in
      assert (@repeat T x a = []) as H by (replace a with 0 by alia; reflexivity);
      rewrite H; clear H
  end.

Ltac lnorm :=
  repeat progress (
    rewrite ?firstn_map, ?skipn_map, ?map_app, ?firstn_rep, ?skipn_rep, ?app_nil_r, <- ?app_assoc;
    cbn [map app]; shrink; repeat rep_one).

Ltac leq :=
  repeat match goal with
  | |- ?x = ?x => reflexivity
  | |- repeat _ _ = repeat _ _ => f_equal; alia
  | |- map _ _ = map _ _ => f_equal
  | |- firstn _ _ = firstn _ _ => f_equal; alia
  | |- skipn _ _ = skipn _ _ => f_equal; alia
  | |- _ ++ _ = _ ++ _ => f_equal
  | |- _ :: _ = _ :: _ => f_equal
  end.

Ltac fin_wfl :=
  rewrite ?wfl_app, ?tot_app, ?tot_up, ?tot_dn; cbn [wfl bp bs bd tot];
  unfold okb, okd; cbn [bp bs bd ev ecat];
  repeat match goal with |- _ /\ _ => split | |- True => exact I end;
  try alia; try cats;
  try match goal with
  | H : wfl ?c ?P ?t |- wfl ?c ?P' ?t => apply (wfl_cast c P P' t H); alia
  | H : wfl ?c ?P ?t |- wfl ?c ?P' (shift_up ?d ?t) =>
      apply (wfl_cast c (P + d) P'); [apply wfl_up; exact H | alia]
  | H : wfl ?c ?P ?t |- wfl ?c ?P' (shift_dn ?d ?t) =>
      apply (wfl_cast c (P - d) P'); [apply wfl_dn; [alia | exact H] | alia]
  end.

Ltac fin_tot :=
  rewrite ?tot_app, ?tot_up, ?tot_dn; cbn [tot bs]; rewrite ?tot_up, ?tot_dn; alia.

Ltac fin_chain :=
  try (exact I); chain_norm;
  repeat match goal with |- _ /\ _ => split | |- True => exact I end;
  first
  [ exact I
  | assumption
  | solve [unfold Rne, Ree in *; congruence]
  | solve [unfold Rne, Ree in *; intros; auto; congruence]
  | match goal with
    | H : chain ?R (?q ++ [?x]) |- chain ?R (?q ++ [?y]) => replace y with x by congruence; exact H
    | H : chain ?R (?q ++ [?x]) |- chain ?R ?q => exact (chain_pre R q [x] H)
    | H : chain ?R (?x :: ?q) |- chain ?R (?y :: ?q) => replace y with x by congruence; exact H
    | H : chain ?R (?x :: ?q) |- chain ?R ?q => exact (chain_tail R x q H)
    | H : chain Ree (?x :: ?q) |- chain Ree (Some ?y :: ?q) => exact (chain_ree y q (chain_tail Ree x q H))
    end ].

Ltac fin_flat :=
  unfold flat; cbn [bl];
  repeat progress (rewrite ?flatl_app, ?flatl_up, ?flatl_dn, ?flatl_cons, ?flatl_nil);
  unfold flatb; cbn [bd ev bs];
  unfold splice; rewrite ?firstn_app, ?skipn_app; lnorm; leq.

Ltac fin_cnt0 :=
  cbn [bl acq rel freed];
  repeat progress (
    rewrite ?refs_app, ?mo_app, ?refs_up, ?refs_dn, ?mo_up, ?mo_dn, ?refs_cons, ?mo_cons, ?refs_nil, ?mo_nil;
    cbn [refb mob bd ev ecat eid app]);
  rewrite ?app_nil_r;
  repeat progress (rewrite ?cnt_app, ?cnt_own_app; cbn [cnt app]);
  rewrite ?refs_nil, ?mo_nil; cbn [cnt].

Ltac own_fin :=
  repeat match goal with
  | H : ?m ?c = false |- context [own ?m ?c ?l] => rewrite (own_unmanaged m c l H)
  end;
  cbn [cnt];
  rewrite ?cnt_own_app;
  repeat match goal with
  | |- context [@cnt _ ?p (own ?m ?c (?x :: ?l))] =>
      lazymatch l with [] => fail | _ => rewrite (cnt_own_cons m p c x l) end
  end;
  rewrite ?cnt_own_app;
  repeat match goal with
  | |- context [@cnt ?T ?p (own ?m ?c (firstn ?k (skipn ?a ?l)))] =>
      pose proof (cnt_own_slice m p c a k l);
      generalize dependent (@cnt T p (own m c (firstn k (skipn a l)))); intros
  end;
  repeat match goal with
  | |- context [@cnt ?T ?p (own ?m ?c (skipn ?a ?l))] =>
      pose proof (cnt_own_rest m p c a l);
      generalize dependent (@cnt T p (own m c (skipn a l))); intros
  end;
  repeat match goal with
  | H : context [@firstn ?T ?k ?l] |- _ => revert H
  end;
  repeat match goal with
  | |- context [@firstn ?T ?k ?l] =>
      first [ rewrite (@firstn_all2 T k l) by alia
            | let H := fresh in
              assert (@firstn T k l = []) as H by (replace k with 0 by alia; reflexivity);
              rewrite H; clear H ]
  end;
  repeat match goal with
  | |- context [@firstn ?T ?k ?l] =>
      match goal with
      | |- context [@firstn T ?k' l] =>
          tryif constr_eq k k' then fail
          else (let H := fresh in
                assert (@firstn T k l = firstn k' l) as H by (f_equal; alia); rewrite H; clear H)
      end
  end;
  rewrite ?cnt_own_nil; intros; alia.

Ltac head t := lazymatch t with ?f _ => head f | _ => t end.

Ltac uf m :=
  let h := head m in
  lazymatch h with
  | @merge_next => unfold merge_next
  | @merge_adj => unfold merge_adj
  | @to_middle => unfold to_middle
  | @new_cell => unfold new_cell
  | @append_cell => unfold append_cell
  | @set_cell_middle => unfold set_cell_middle
  | @set_cell_top => unfold set_cell_top
  | @set_cell_bottom => unfold set_cell_bottom
  | @set_cell_empty_top => unfold set_cell_empty_top
  | @set_cell_empty_join => unfold set_cell_empty_join
  | @set_cell_empty => unfold set_cell_empty
  | @join_next => unfold join_next
  | @join_prev => unfold join_prev
  | @set_cell_size_one => unfold set_cell_size_one
  | @set_join_next => unfold set_join_next
  | @set_impl => unfold set_impl
  | @set_whole_block_empty => unfold set_whole_block_empty
  | @set_empty_single => unfold set_empty_single
  | @set_empty_multi => unfold set_empty_multi
  | @append_to_prev => unfold append_to_prev
  | @new_values => unfold new_values
  | @insert_empty_impl => unfold insert_empty_impl
  | @insert_cells_to_middle => unfold insert_cells_to_middle
  | @insert_cells_impl => unfold insert_cells_impl
  | @append_empty => unfold append_empty
  | @erase_single => unfold erase_single
  | @erase_multi => unfold erase_multi
  | @resize_down => unfold resize_down
  | @set_cells_single => unfold set_cells_single
  | @set_cells_multi_non_equal => unfold set_cells_multi_non_equal
  | @set_cells_multi_equal => unfold set_cells_multi_equal
  | @set_cells_multi => unfold set_cells_multi
  end.

(* after a neighbour of the window has been destructed *)
Ltac reopen :=
  repeat match goal with
  | H : length (flatl (_ :: _)) = _ |- _ => clear H
  | H : length (flatl []) = _ |- _ => clear H
  | H : length (flatl (_ ++ _)) = _ |- _ => clear H
  | H : wfl _ _ [] |- _ => clear H
  | H : wfl _ _ (_ ++ _) |- _ => rewrite wfl_app in H; destruct H
  | H : wfl _ _ (_ :: _) |- _ =>
      cbn [wfl] in H; unfold okb, okd in H; cbn [bp bs bd ev ecat] in H; dest_all; subst
  | H : context [tot (_ ++ _)] |- _ => rewrite tot_app in H; cbn [tot bs] in H
  | H : context [tot (_ :: _)] |- _ => progress (cbn [tot bs] in H)
  | H : context [tot []] |- _ => progress (cbn [tot bs] in H)
  | H : chain _ (map bcat (_ ++ [_]) ++ _) |- _ => open_chain H; dest_all
  | H : chain _ (_ :: map bcat (_ :: _)) |- _ => open_chain H; dest_all
  | H : chain _ (_ ++ _ :: map bcat (_ :: _)) |- _ => open_chain H; dest_all
  | H : chain _ (_ ++ _ :: map bcat []) |- _ => open_chain H; dest_all
  | H : chain _ (_ :: map bcat []) |- _ => clear H
  | H : chain _ (map bcat [] ++ _) |- _ => open_chain H; dest_all
  end;
  flat_lens.

Ltac shift_red :=
  repeat match goal with
  | |- context [shift_up ?d (BK ?p ?z ?e :: ?l)] =>
      change (shift_up d (BK p z e :: l)) with (BK (p + d) z e :: shift_up d l)
  | |- context [shift_dn ?d (BK ?p ?z ?e :: ?l)] =>
      change (shift_dn d (BK p z e :: l)) with (BK (p - d) z e :: shift_dn d l)
  | |- context [@shift_up ?V ?d []] => change (@shift_up V d []) with (@nil (@blk V))
  | |- context [@shift_dn ?V ?d []] => change (@shift_dn V d []) with (@nil (@blk V))
  end.

Ltac open_tail t :=
  let pn := fresh "pn" in let zn := fresh "zn" in let i := fresh "i" in
  let cn := fresh "cn" in let ln := fresh "ln" in
  destruct t as [|[pn zn [[i cn ln]|]] t]; shift_red; rewrite ?app_nil_r; reopen; try (solve [contra_ee]).

Ltac open_init q :=
  let pp := fresh "pp" in let zp := fresh "zp" in let ip := fresh "ip" in
  let cp := fresh "cp" in let lp := fresh "lp" in
  destruct q as [|[pp zp [[ip cp lp]|]] q _] using rev_ind;
  rewrite ?last_length, <- ?app_assoc; cbn [app length tot];
  repeat match goal with
    |- context [@length (@blk ?T) ?m + S (@length (@blk ?T) ?q)] =>
      replace (@length (@blk T) m + S (@length (@blk T) q)) with (S (length m + length q))
        by apply plus_n_Sm end;
  reopen; try (solve [contra_ee]).

Ltac tailvar L :=
  lazymatch L with
  | _ ++ ?r => tailvar r
  | _ :: ?r => tailvar r
  | shift_dn _ ?r => tailvar r
  | shift_up _ ?r => tailvar r
  | ?v => let _ := match goal with _ => is_var v end in v
  end.

Ltac split_if1 c :=
  first [ assert (c = true) as -> by bsolve
        | assert (c = false) as -> by bsolve
        | lazymatch c with
          | context [length (@cons (@blk _) ?x ?L)] => let t := tailvar L in open_tail t
          | context [length (@app (@blk _) ?x ?L)] => let t := tailvar L in open_tail t
          end
        | lazymatch c with
          | context [length ?q =? 0] => is_var q; open_init q
          end
        | let E := fresh "E" in destruct c eqn:E; unfold nblk in E;
          cbn [bl cs ecat ev bp bs bd dcat option_map length] in E; bprop; try subst ];
  cbn iota beta.

Ltac split_if c :=
  let c' := eval cbv beta iota delta [nblk with_cs with_bl ev_acq ev_rel destroy bl] in c in
  change c with c';
  split_if1 c'.

(* remove the blocks [i, i+n) *)
Ltac nil_of l := lazymatch type of l with list ?A => constr:(@nil A) end.
Ltac after k l := lazymatch k with O => l | S ?k' => lazymatch l with _ :: ?l' => after k' l' end end.
Ltac upto k l :=
  lazymatch k with
  | O => nil_of l
  | S ?k' => lazymatch l with ?x :: ?l' => let r := upto k' l' in constr:(x :: r) end
  end.
Ltac cut_len n acc l tac :=
  first [ assert (n = length acc) by (unfold nblk; cbn [bl]; lens; alia); tac acc l
        | lazymatch l with
          | ?x :: ?l' => let a := constr:(acc ++ [x]) in cut_len n a l' tac
          | ?m ++ ?l' => let a := constr:(acc ++ m) in cut_len n a l' tac
          | ?m => is_var m; let a := constr:(acc ++ m) in let z := nil_of m in cut_len n a z tac
          end ].
Ltac wkill0 q l i n :=
      let k := offset q i in
      let k := eval cbn in k in
      let h := upto k l in
      let r := after k l in
      let z := nil_of l in
      cut_len n z r ltac:(fun mid post =>
        first [ eapply (wp_kill _ (q ++ h) mid post) | eapply (wp_drop _ (q ++ h) mid post) ];
        [ cbn [app]; rewrite <- ?app_assoc; cbn [app]; rewrite ?app_nil_r; reflexivity
        | lens; alia | assumption | ];
        rewrite <- ?app_assoc; cbn [app];
        repeat progress (rewrite ?refs_app, ?mo_app, ?refs_cons, ?mo_cons, ?refs_nil, ?mo_nil;
          cbn [refb mob bd ev ecat eid app]); rewrite ?app_nil_r;
        match goal with H : n = _ |- _ => clear H end).
Ltac wkill L i n :=
  lazymatch L with
  | ?q ++ ?l => wkill0 q l i n
  | ?l => let z := nil_of l in wkill0 z l i n
  end.

Ltac wstep :=
  lazymatch goal with
  | |- wp (bind (merge_next _ (pred (length ?q)) _) _) _ => is_var q; open_init q
  | |- wp (bind (delete_element_blocks _ ?i ?n (ST ?L _ _ _ _ _ _)) ?K) _ => wkill L i n
  | |- wp (bind (drop_blocks _ ?i ?n _ (ST ?L _ _ _ _ _ _)) ?K) _ => wkill L i n
  | |- wp (bind (if _ then bind (drop_blocks _ _ _ _ _) _ else Ok _) ?K) _ =>
      eapply wp_drop_guard; [unfold nblk; cbn [bl]; lens; alia|]
  | |- wp (bind (Ok ?x) ?K) ?Q =>
      let x' := eval cbv beta iota delta
        [with_cs with_bl ev_acq ev_rel destroy bl cs nid tag acq rel freed eid ecat ev] in x in
      change (wp (K x') Q); cbv beta; cbn [fst snd]
  | |- wp (bind (bind ?m ?f) ?K) ?Q => rewrite bind_bind
  | |- wp (bind (if ?c then ?a else ?b) ?K) ?Q => split_if c
  | |- wp (if ?c then ?a else ?b) ?Q => split_if c
  | |- wp (bind (match length ?q with _ => _ end) ?K) ?Q => is_var q; open_init q
  | |- wp (match length ?q with _ => _ end) ?Q => is_var q; open_init q
  | |- wp (bind (deref (nth_error ?t _)) ?K) ?Q =>
      first [is_var t; open_tail t
            |lazymatch t with shift_dn _ ?t' => is_var t'; open_tail t' | shift_up _ ?t' => is_var t'; open_tail t' end
            |progress (eapply wp_beq; [pe|])]
  | |- wp (bind (match ?d with _ => _ end) ?K) ?Q => progress cbn [fresh bl cs nid tag acq rel freed fst snd]
  | |- wp (match ?d with _ => _ end) ?Q => progress cbn [fresh bl cs nid tag acq rel freed fst snd]
  | |- wp (Ok _) _ => cbn [wp]
  | |- wp (bind ?m ?K) ?Q => first [uf m | progress (eapply wp_beq; [pe|])]
  | |- wp ?m ?Q => first [uf m | progress (eapply wp_eq; [pe|])]
  end.

(* the postcondition is kept folded during symbolic execution *)
Ltac step_all :=
  match goal with |- wp _ ?Q => let QQ := fresh "QQ" in set (QQ := Q); repeat wstep; unfold QQ; clear QQ; cbn beta end.

(* close the cases of a one-state operation *)
Ltac fin_step :=
  lazymatch goal with
  | |- good _ _ => unfold good; cbn [bl cs]; split; [fin_wfl | split; [fin_tot | fin_chain]]
  | |- canon _ -> canon _ =>
      let H := fresh "Hcan" in unfold canon; cbn [bl]; intros H; open_chain H; dest_all; fin_chain
  | |- tag _ = _ => reflexivity
  | |- events _ _ => unfold events; intros ?; fin_cnt0; alia
  | |- flat _ = _ => fin_flat
  | |- at_pos _ _ _ => unfold at_pos; eexists; split; [cbn [bl]; pe | cbn [bs bp]; alia]
  | |- forall p, cnt p _ + _ + _ = _ => intros ?; fin_cnt0; own_fin
  | |- ?x = ?x => reflexivity
  end.

Ltac fin :=
  cbn [fst snd]; unfold with_cs, push_blk, with_bl;
  cbn [bl cs nid tag acq rel freed]; rewrite <- ?app_assoc, ?tot_app; cbn [app tot bs];
  lazymatch goal with
  | |- wp _ _ => idtac
  | |- _ => unfold step, step0; repeat match goal with |- _ /\ _ => split end; try (solve [fin_step])
  end.

(* split off the block before the window *)
Ltac win3 q tac :=
  (let pp := fresh "pp" in let zp := fresh "zp" in let ip := fresh "ip" in
   let cp := fresh "cp" in let lp := fresh "lp" in
   destruct q as [|[pp zp [[ip cp lp]|]] q _] using rev_ind;
   [cbn [app length] in *
   |rewrite app_length, Nat.add_comm; cbn [length Nat.add]; rewrite <- app_assoc in *; cbn [app] in *
   |rewrite app_length, Nat.add_comm; cbn [length Nat.add]; rewrite <- app_assoc in *; cbn [app] in *]);
  tac.
