(** multi_type_vector: the three parts of transfer_multi_blocks, and the source afterwards. *)
From Coq Require Import List ZArith Lia Bool.
From Verif Require Import Base MtvModel MtvXfer MtvProofs MtvTac MtvWrap MtvXferMerge MtvXferHole.
Import ListNotations.

Section P.
Set Default Proof Using "Type".
Context {V : Type}.
Variable cat : V -> nat.
Variable managed : nat -> bool.
Notation eblk := (@eblk V).
Notation blk := (@blk V).
Notation st := (@st V).

(** [B] holds the rows [k, k+n) of the block [b], at position [p]. *)
Definition piece (b : blk) (k n p : nat) (B : blk) : Prop :=
  bp B = p /\ bs B = n /\ okb cat B /\ bcat B = bcat b /\ flatb B = firstn n (skipn k (flatb b)).

(** The source has given away a block, or the destination has received blocks. *)
Definition gave (s s' : st) (x x' : list blk) : Prop :=
  cs s' = cs s /\ tag s' = tag s /\ freed s' = freed s /\ acq s' = acq s /\
  forall p, cnt p (rel s') + cnt p (refs x') = cnt p (rel s) + cnt p (refs x).
Definition got (d d' : st) (x : list blk) : Prop :=
  cs d' = cs d /\ tag d' = tag d /\ freed d' = freed d /\ rel d' = rel d /\
  forall p, cnt p (acq d') = cnt p (acq d) + cnt p (refs x).

Ltac piece_tac :=
  unfold piece, okb, okd, flatb; cbn [bp bs bd ev ecat];
  repeat match goal with |- _ /\ _ => split end; try exact Logic.I; try alia; try (solve [cats]);
  try reflexivity; try (solve [lnorm; leq]).

Ltac part_tac :=
  repeat match goal with |- _ /\ _ => split end; try reflexivity;
  try (solve [unfold gave, got; cbn [cs tag freed acq rel]; repeat match goal with |- _ /\ _ => split end; try reflexivity;
    intros ?; fin_cnt0; alia]); try (solve [piece_tac]).

Lemma xfer_first_spec (qs : list blk) b ts c n g a r f (qd R : list blk) c' n' g' a' r' f' off :
  wfl cat 0 (qs ++ b :: ts) -> wfl cat 0 qd -> off < bs b ->
  wp (xfer_first off (length qs) (length qd) (ST (qs ++ b :: ts) c n g a r f)
                 (ST (qd ++ BK 0 0 None :: R) c' n' g' a' r' f'))
     (fun x => exists b' B, bl (fst (fst x)) = qs ++ b' :: ts /\ bl (snd (fst x)) = qd ++ B :: R /\
        gave (ST (qs ++ b :: ts) c n g a r f) (fst (fst x)) [b] [b'] /\
        got (ST (qd ++ BK 0 0 None :: R) c' n' g' a' r' f') (snd (fst x)) [B] /\
        piece b off (bs b - off) (tot qd) B /\
        ((off = 0 /\ zero b' /\ snd x = length qs) \/
         (0 < off /\ piece b 0 off (bp b) b' /\ snd x = S (length qs)))).
Proof.
  intros Hs Hd Hb.
  destruct b as [pb zb [[ib cb lb]|]]; cbn [bs bp] in *.
  all: destruct qd as [|x qd _] using rev_ind; [|destruct x as [px zx dx]; rewrite <- app_assoc, last_length; cbn [app]].
  all: repeat (progress (rewrite ?wfl_app, ?tot_app in Hs; cbn [wfl tot bp bs bd] in Hs)).
  all: repeat (progress (rewrite ?wfl_app, ?tot_app in Hd; cbn [wfl tot bp bs bd] in Hd)).
  all: unfold okb, okd in Hs, Hd; cbn [bp bs bd ev ecat] in Hs, Hd; dest_all; subst.
  all: rewrite ?tot_app; cbn [tot bs length app]; unfold xfer_first.
  all: step_all; cbn [fst snd bl].
  all: eexists _, _; rewrite <- ?app_assoc; cbn [app].
  all: split; [reflexivity|]; split; [reflexivity|].
  all: part_tac.
  all: first [ left; repeat split; reflexivity | right; split; [lia|split; [piece_tac|reflexivity]] ].
Qed.

Lemma xfer_last_spec (qs : list blk) b ts c n g a r f (qd R : list blk) z c' n' g' a' r' f' k :
  wfl cat (bp b) (b :: ts) -> wfl cat 0 qd -> 0 < k <= bs b -> zero z ->
  wp (xfer_last k (length qs) (length qd) (ST (qs ++ b :: ts) c n g a r f)
                 (ST (qd ++ z :: R) c' n' g' a' r' f'))
     (fun x => exists b' B, bl (fst (fst x)) = qs ++ b' :: ts /\ bl (snd (fst x)) = qd ++ B :: R /\
        gave (ST (qs ++ b :: ts) c n g a r f) (fst (fst x)) [b] [b'] /\
        got (ST (qd ++ z :: R) c' n' g' a' r' f') (snd (fst x)) [B] /\
        piece b 0 k (tot qd) B /\
        ((k = bs b /\ zero b' /\ snd x = length qs) \/
         (k < bs b /\ piece b k (bs b - k) (bp b + k) b' /\ snd x = pred (length qs)))).
Proof.
  intros Hs Hd Hb [Hz1 Hz2].
  destruct z as [pz zz dz]. cbn [bs bd] in Hz1, Hz2. subst zz dz.
  destruct b as [pb zb [[ib cb lb]|]]; cbn [bs bp] in *.
  all: destruct qd as [|x qd _] using rev_ind; [|destruct x as [px zx dx]; rewrite <- app_assoc, last_length; cbn [app]].
  all: repeat (progress (rewrite ?wfl_app, ?tot_app in Hs; cbn [wfl tot bp bs bd] in Hs)).
  all: repeat (progress (rewrite ?wfl_app, ?tot_app in Hd; cbn [wfl tot bp bs bd] in Hd)).
  all: unfold okb, okd in Hs, Hd; cbn [bp bs bd ev ecat] in Hs, Hd; dest_all; subst.
  all: rewrite ?tot_app; cbn [tot bs length app]; unfold xfer_last.
  all: step_all; cbn [fst snd bl].
  all: eexists _, _; rewrite <- ?app_assoc; cbn [app].
  all: split; [reflexivity|]; split; [reflexivity|].
  all: part_tac.
  all: first [ left; split; [lia|split; [split; reflexivity|reflexivity]]
             | right; split; [lia|split; [piece_tac|reflexivity]] ].
Qed.

Lemma wp_is {A} (X Y : res A) : wp X (fun y => Y = Ok y) -> X = Y.
Proof. destruct X; cbn; intros E; now inversion E. Qed.

(** A block whose rows have been taken. *)
Definition drained (b : blk) : blk := BK (bp b) 0 None.

Lemma xfer_mid_spec m : forall (qs ts : list blk) c n g a r f (qd Z R : list blk) c' n' g' a' r' f' p,
  length Z = length m -> Forall zero Z ->
  xfer_mid (length m) (length qs) (length qd) p (ST (qs ++ m ++ ts) c n g a r f)
           (ST (qd ++ Z ++ R) c' n' g' a' r' f')
  = Ok (ST (qs ++ map drained m ++ ts) c n g a (r ++ refs m) f,
        ST (qd ++ place p m ++ R) c' n' g' (a' ++ refs m) r' f').
Proof.
  induction m as [|b m IH]; intros qs ts c n g a r f qd Z R c' n' g' a' r' f' p Hl HZ.
  - destruct Z; [|discriminate]. cbn. rewrite !app_nil_r. reflexivity.
  - destruct Z as [|[pz zz dz] Z]; [discriminate|]. inversion HZ as [|? ? [Hz1 Hz2] HZ']. subst. cbn [bs bd] in Hz1, Hz2. subst.
    cbn [length] in Hl. injection Hl as Hl.
    destruct b as [pb zb [[ib cb lb]|]]; cbn [length xfer_mid place map app bs bd].
    all: specialize (IH (qs ++ [BK pb 0 None]) ts c n g a).
    + specialize (IH (r ++ [(ib, cb)]) f (qd ++ [BK p zb (Some (EB ib cb lb))]) Z R c' n' g' (a' ++ [(ib, cb)]) r' f' (p + zb) Hl HZ').
      rewrite !last_length, <- !app_assoc in IH. cbn [app] in IH.
      apply wp_is. step_all. rewrite IH. reflexivity.
    + specialize (IH r f (qd ++ [BK p zb None]) Z R c' n' g' a' r' f' (p + zb) Hl HZ').
      rewrite !last_length, <- !app_assoc in IH. cbn [app] in IH.
      apply wp_is. step_all. rewrite IH. reflexivity.
Qed.

Ltac open_chains :=
  repeat match goal with
  | H : chain _ (map bcat (_ ++ _)) |- _ => progress (chain_norm_in H); dest_all
  | H : chain _ (map bcat (_ :: _)) |- _ => progress (chain_norm_in H); dest_all
  | H : chain _ (map bcat []) |- _ => clear H
  | H : chain _ [_] |- _ => clear H
  | H : chain _ [] |- _ => clear H
  end.

Ltac merged_tac :=
  unfold merged; cbn [bl cs tag]; repeat match goal with |- _ /\ _ => split end;
  [ fin_wfl | fin_tot | first [reflexivity | alia] | reflexivity | fin_flat | intros ?; fin_cnt0; own_fin | fin_step ].

Lemma del_guard (pre Zs T : list blk) L i j c n g a r f :
  L = pre ++ Zs ++ T -> i = length pre -> j + 1 = i + length Zs -> 0 < i ->
  (if i <=? j then del i (j - i + 1) (ST L c n g a r f) else Ok (ST L c n g a r f))
  = Ok (ST (pre ++ T) c n g a r f).
Proof.
  intros -> -> E H. destruct (Nat.leb_spec (length pre) j) as [Lj|Lj].
  - replace (j - length pre + 1) with (length Zs) by lia. now apply del_spec.
  - destruct Zs; [reflexivity|]. cbn [length] in E. lia.
Qed.

Lemma xfer_close_spec (s0 s : st) Q Zs T a len bi1 bi2 :
  hole cat s0 s Q Zs T a len -> Forall zero Zs -> 0 < len ->
  (Zs = [] -> S bi1 = length Q /\ bi2 = length Q /\ T <> [] /\ chain Ree (map bcat (Q ++ T)) /\
              (canon s0 -> chain Rne (map bcat (Q ++ T)))) ->
  wp (xfer_close managed len bi1 bi2 (length Q) (pred (length Q + length Zs)) s)
     (fun x => xstep cat s0 (fst x) a len (repeat None len) True /\ at_pos (fst x) (snd x) a).
Proof.
  intros H HZ Hl H0.
  pose proof H as (F1 & F2 & F3 & F4 & F5 & F6 & F7 & F8 & F9 & F10 & F11 & F12 & F13 & F14).
  destruct s as [l c n g ac rl fr]. cbn [bl cs tag freed acq rel] in *. subst l.
  assert (forall (s2 : st) e, e = a -> merged cat managed (ST (Q ++ [BK a len None] ++ T) c n g ac rl fr) s2 ->
     chain Ree (map bcat (bl s2)) -> (canon s0 -> canon s2) ->
     xstep cat s0 s2 e len (repeat None len) True) as Fill.
  { intros s2 e -> M C1 C2.
    replace (repeat None len) with (flatl [@BK V a len None]) by (cbn; apply app_nil_r).
    eapply (fill_core cat managed); [exact H|..|exact M|exact C1|auto]; try reflexivity.
    - intros p. cbn. lia.
    - cbn [wfl bp bs bd]. repeat split; auto.
    - cbn. lia. }
  rewrite <- F2 in F8. clear F2 F3 F4 F9 F10 F14 H.
  destruct Zs as [|z1 Zs].
  - destruct (H0 eq_refl) as (B1 & B2 & HT & C1 & C2). clear H0.
    destruct Q as [|x Q _] using rev_ind; [discriminate|].
    destruct T as [|y T]; [congruence|]. rewrite last_length in *. injection B1 as ->. subst bi2 a.
    cbn [length app] in *. rewrite Nat.add_0_r. cbn [pred]. rewrite <- !app_assoc in *. cbn [app] in *.
    destruct x as [px zx [[ix cx lx]|]]; destruct y as [py zy [[iy cy ly]|]].
    all: repeat (progress (rewrite ?wfl_app, ?tot_app in F5; cbn [wfl tot bp bs bd] in F5)).
    all: repeat (progress (rewrite ?wfl_app, ?tot_app in F7; cbn [wfl tot bp bs bd] in F7)).
    all: rewrite ?tot_app in *; cbn [tot bp bs bd] in *.
    all: unfold okb, okd in F5, F7; cbn [bp bs bd ev ecat] in F5, F7; clear F13; dest_all; flat_lens; subst.
    all: unfold xfer_close; step_all; cbn [fst snd].
    all: split; [apply Fill; [alia|..]|try fin_step].
    all: try (solve [merged_tac]).
    all: cbn [bl]; try (solve [open_chains; fin_chain]).
    all: try (solve [intros Hc; specialize (C2 Hc); unfold canon; cbn [bl]; open_chains; fin_chain]).
  - clear H0. inversion HZ as [|? ? [Hz1 Hz2] HZ']; subst x l. destruct z1 as [pz zz dz]. cbn [bs bd] in Hz1, Hz2. subst zz dz.
    clear HZ HZ'. subst a.
    destruct Q as [|[px zx [[ix cx lx]|]] Q _] using rev_ind;
      rewrite ?last_length, <- ?app_assoc in *; cbn [app] in *; cbn [length pred Nat.add].
    all: repeat (progress (rewrite ?wfl_app, ?tot_app in F5; cbn [wfl tot bp bs bd] in F5)).
    all: rewrite ?tot_app in *; cbn [tot bp bs bd] in *.
    all: unfold okb, okd in F5; cbn [bp bs bd ev ecat] in F5; dest_all; flat_lens; subst.
    2,3: rewrite map_app, map_cons, ?bcat_none, ?bcat_some in F11; cbn [map] in F11.
    all: unfold xfer_close.
    all: match goal with |- wp _ ?Q => set (QQ := Q) end.
    all: repeat (lazymatch goal with
         | |- wp (bind (if _ <=? _ then del _ _ _ else _) _) _ => fail
         | |- wp (bind (is_prev _ _ _) _) _ => eapply wp_beq; [pe|]
         | _ => wstep end).
    1: eapply wp_beq; [apply (del_guard [BK pz len None] Zs T); [reflexivity|reflexivity|cbn [length]; lia|lia]|].
    2: eapply wp_beq; [apply (del_guard (Q ++ [BK (tot Q) (length lx) (Some (EB ix cx lx)); BK pz len None]) Zs T);
         [rewrite <- app_assoc; reflexivity|rewrite app_length; cbn [length]; lia|lia|lia]|].
    3: eapply wp_beq; [apply (del_guard (Q ++ [BK (tot Q) (zx + len) None]) (BK pz 0 None :: Zs) T);
         [rewrite <- app_assoc; reflexivity|rewrite app_length; cbn [length]; lia|cbn [length]; lia|lia]|].
    all: rewrite <- ?app_assoc; cbn [app pred]; subst QQ.
    all: step_all; cbn [fst snd].
    all: split; [apply Fill; [alia|..]|try fin_step].
    all: try (solve [merged_tac]).
    all: cbn [bl]; rewrite <- ?app_assoc in *; cbn [app] in *; clear Fill.
    all: try (solve [open_chains; fin_chain]).
    all: try (solve [intros Hc; specialize (F13 Hc); destruct F13; unfold canon; cbn [bl]; open_chains; fin_chain]).
Qed.
End P.
