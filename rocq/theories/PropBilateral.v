(** PropBilateral.v - C107 to C109: the bilateral filter and the patch distance. *)
From Coq Require Import Reals Lra ZArith Lia ZifyBool ZifyNat Permutation.
From Verif Require Import Base ImageModel ImageFacts IndexModel ImageProofs GeomModel GeomProofs PadProofs CropProofs
  OField PixelModel PixelProofs HistModel ReduceModel ReduceProofs SiftModel ConvModel BigSum RSum ConvNProofs WindowProofs FourierProofs GaussProofs
  TextProofs PropBmp PropConv TurnModel TurnProofs BilateralModel BilateralProofs.
Open Scope nat_scope.

(** ** C107: the result stays within the range of the picture *)
Section Range.
  Variable cast : R -> R.
  Variables rk sk : R -> R.
  Hypothesis Rnn : forall t, (0 <= rk t)%R.
  Hypothesis Snn : forall t, (0 <= sk t)%R.
  Hypothesis R0 : (0 < rk 0)%R.
  Hypothesis S0 : (0 < sk 0)%R.
  Hypothesis Mono : forall a b, (a <= b)%R -> (cast a <= cast b)%R.
  Hypothesis Idem : forall a, cast (cast a) = cast a.
  Variables lo hi : R.
  Hypothesis Clo : cast lo = lo.
  Hypothesis Chi : cast hi = hi.

  Definition sound (v : R) : Prop := (lo <= v <= hi)%R /\ cast v = v.

  Lemma range_loop w h ww wh l : forall padded P,
    0 < ww -> 0 < wh -> (Z.of_nat (w + 2 * ww) <= 2 ^ 62)%Z -> (Z.of_nat (h + 2 * wh) <= 2 ^ 62)%Z ->
    (forall k, In k l -> k < w * h) ->
    ReprN padded [w + 2 * ww; h + 2 * wh] P -> (forall q, in_range [w + 2 * ww; h + 2 * wh] q -> sound (P q)) ->
    exists o Q, for_list l (wbody 0%R (bfilter cast rk sk [ww; wh]) [w; h] [ww; wh] [ww; wh]) padded = Ok o /\
      ReprN o [w + 2 * ww; h + 2 * wh] Q /\ (forall q, in_range [w + 2 * ww; h + 2 * wh] q -> sound (Q q)).
  Proof.
    induction l as [|k l IH]; intros padded P Pww Pwh Bw Bh Hl Rp HP; [exists padded, P; auto|].
    assert (Ep : [w + 2 * ww; h + 2 * wh] = map (fun ab => fst ab + 2 * snd ab) (combine [w; h] [ww; wh])) by reflexivity.
    assert (Pn : 0 < prodn [ww; wh]) by (rewrite prodn2; nia).
    assert (SP : Forall (fun n => (Z.of_nat n <= 2 ^ 62)%Z) [w + 2 * ww; h + 2 * wh]) by (repeat constructor; auto).
    assert (SW : Forall (fun n => (Z.of_nat n <= 2 ^ 62)%Z) [ww; wh]) by (repeat constructor; lia).
    assert (Hk : k < prodn [w; h]) by (rewrite prodn2; apply Hl; left; auto).
    cbn [for_list]; rewrite (wbody_ok 0%R _ [w; h] [ww; wh] [ww; wh] _ eq_refl eq_refl Ep Pn SP SW padded P k Rp Hk); cbn [bind].
    destruct (unoff_spec [w; h] k Hk) as [IR _].
    pose proof (shifted_in [w; h] [ww; wh] _ eq_refl Ep _ IR) as Hc.
    set (c := idx_add (unoff [w; h] k) [ww; wh]) in *.
    set (v := bfilter cast rk sk [ww; wh] (window_of 0%R P [w + 2 * ww; h + 2 * wh] [ww; wh] c)).
    assert (Hv : sound v).
    { unfold v, window_of; rewrite (bfilter_ok cast rk sk Rnn Snn R0 S0 [ww; wh] _ _ ltac:(discriminate) Pn (tab_ReprN _ _)).
      split; [|apply Idem].
      apply bvalue_bounds; auto; intros idx I; rewrite prodn2 in Hk.
      destruct idx as [|u [|v' [|z zz]]]; try (apply in_range_length in I; simpl in I; lia).
      apply in_range2 in I; destruct I as [Hu Hv'].
      assert (Lt1 : k mod w < w) by (apply Nat.mod_upper_bound; nia).
      assert (Lt2 : (k / w) mod h < h) by (apply Nat.mod_upper_bound; nia).
      assert (D1 : ww / 2 <= ww) by (apply Nat.div_le_upper_bound; lia).
      assert (D2 : wh / 2 <= wh) by (apply Nat.div_le_upper_bound; lia).
      set (p := k mod w + (ww - ww / 2) + u); set (q := (k / w) mod h + (wh - wh / 2) + v').
      assert (Q : crop_poss c [ww; wh] [u; v'] = map Z.of_nat [p; q]).
      { unfold c; cbn [unoff idx_add crop_poss map]; unfold crop_pos, p, q; f_equal; [lia|]; f_equal; lia. }
      assert (Hp : p < w + 2 * ww) by (unfold p; lia); assert (Hq : q < h + 2 * wh) by (unfold q; lia).
      rewrite Q; unfold insideb; cbn [map combine forallb fst snd].
      replace (0 <=? Z.of_nat p)%Z with true by lia; replace (Z.of_nat p <? Z.of_nat (w + 2 * ww))%Z with true by lia.
      replace (0 <=? Z.of_nat q)%Z with true by lia; replace (Z.of_nat q <? Z.of_nat (h + 2 * wh))%Z with true by lia.
      cbn [andb]; rewrite !Nat2Z.id; apply HP, in_range2; auto. }
    eapply (IH _ _ Pww Pwh Bw Bh); [intros j Hj; apply Hl; right; auto | eapply upd_ReprN; eauto |].
    intros q Hq; cbv beta; destruct (list_eq_dec Nat.eq_dec q c); auto.
  Qed.
End Range.

(** the elements are the fixed points of the conversion [cast], a nondecreasing function (the identity for floating
    point elements, truncation for integers); the pixels are visited in any order *)
Theorem C107_range :
  forall (cast rk sk : R -> R) sg s (im : image R) w h f ww wh bc c lo hi,
  (forall a b, a <= b -> cast a <= cast b)%R -> (forall a, cast (cast a) = cast a) ->
  (forall t, 0 <= rk t)%R -> (forall t, 0 <= sk t)%R -> (0 < rk 0)%R -> (0 < sk 0)%R ->
  sched_ok sg -> sched1_ok s -> Repr im w h f -> 0 < w -> 0 < h -> 0 < ww -> 0 < wh ->
  (Z.of_nat (w + 2 * ww) <= 2 ^ 62)%Z -> (Z.of_nat (h + 2 * wh) <= 2 ^ 62)%Z ->
  (bc = BMirror -> ww < w /\ wh < h) ->
  cast lo = lo -> cast hi = hi ->
  (forall x y, x < w -> y < h -> (lo <= f x y <= hi)%R /\ cast (f x y) = f x y) ->
  (bc = BConstant -> (lo <= c <= hi)%R /\ cast c = c) ->
  exists o F, bilateral_filter cast rk sk sg s im [ww; wh] bc c = Ok o /\ Repr o w h F /\
    forall x y, x < w -> y < h -> (lo <= F x y <= hi)%R /\ cast (F x y) = F x y.
Proof.
  intros cast rk sk sg s im w h f ww wh bc c lo hi Mono Idem Rnn Snn R0 S0 Hs Hs1 R Pw Ph Pww Pwh Bw Bh HM Clo Chi Hf Hc.
  assert (Pn : 0 < prodn [ww; wh]) by (rewrite prodn2; nia).
  rewrite bilateral_pure by (auto; discriminate).
  rewrite (wf_2d 0%R sg s im w h f) by exact R.
  destruct (padded_Repr sg im w h f ww wh bc c) as (pad & E & Rp); auto; try (unfold fits, two64; lia).
  rewrite E; cbn [bind]; pose proof (proj1 (Repr_ReprN _ _ _ _) Rp) as RpN.
  assert (HK : forall k, In k (s (w * h)) -> k < w * h) by (intros k Hk; apply sched1_in in Hk; auto).
  destruct (range_loop cast rk sk Rnn Snn R0 S0 Mono Idem lo hi Clo Chi w h ww wh (s (w * h)) pad _ Pww Pwh Bw Bh HK RpN)
    as (o & Q & Eo & Ro & HQ).
  - intros q Hq; destruct q as [|x [|y [|z zz]]]; try (apply in_range_length in Hq; simpl in Hq; lia).
    apply in_range2 in Hq; cbn [nth]; unfold extend; destruct bc.
    + destruct (_ && _) eqn:Eb; [apply Hf; lia | apply Hc; auto].
    + destruct (HM eq_refl); apply Hf; unfold reflectZ;
        repeat match goal with |- context [if ?b then _ else _] => destruct b eqn:? end; lia.
    + apply Hf; unfold clampZ; lia.
  - rewrite Eo; cbn [bind]; rewrite (ReprN_dims _ _ _ Ro).
    assert (Ep : [w + 2 * ww; h + 2 * wh] = map (fun ab => fst ab + 2 * snd ab) (combine [w; h] [ww; wh])) by reflexivity.
    assert (SP : Forall (fun n => (Z.of_nat n <= 2 ^ 62)%Z) [w + 2 * ww; h + 2 * wh]) by (repeat constructor; auto).
    destruct (crop_region 0%R (bfilter cast rk sk [ww; wh]) [w; h] [ww; wh] [ww; wh] _ eq_refl eq_refl Ep Pn SP o _ Ro) as (r & Er & Rr);
      [rewrite prodn2; nia|].
    rewrite Er; exists r, (fun x y => Q (idx_add [x; y] [ww; wh])); split; auto; split.
    + apply Repr_ReprN; refine (ReprN_ext _ _ _ _ Rr _).
      intros idx IR; destruct idx as [|x [|y [|z q]]]; try (apply in_range_length in IR; simpl in IR; lia); reflexivity.
    + intros x y Hx Hy; apply HQ; cbn [idx_add]; apply in_range2; lia.
Qed.
Print Assumptions C107_range.

(** a picture of one value is left as it is *)
Corollary C107_flat :
  forall (cast rk sk : R -> R) sg s (im : image R) w h ww wh bc c v,
  (forall a b, a <= b -> cast a <= cast b)%R -> (forall a, cast (cast a) = cast a) ->
  (forall t, 0 <= rk t)%R -> (forall t, 0 <= sk t)%R -> (0 < rk 0)%R -> (0 < sk 0)%R ->
  sched_ok sg -> sched1_ok s -> Repr im w h (fun _ _ => v) -> 0 < w -> 0 < h -> 0 < ww -> 0 < wh ->
  (Z.of_nat (w + 2 * ww) <= 2 ^ 62)%Z -> (Z.of_nat (h + 2 * wh) <= 2 ^ 62)%Z ->
  (bc = BMirror -> ww < w /\ wh < h) -> (bc = BConstant -> c = v) -> cast v = v ->
  bilateral_filter cast rk sk sg s im [ww; wh] bc c = Ok im.
Proof.
  intros cast rk sk sg s im w h ww wh bc c v Mono Idem Rnn Snn R0 S0 Hs Hs1 R Pw Ph Pww Pwh Bw Bh HM Hc Cv.
  destruct (C107_range cast rk sk sg s im w h (fun _ _ => v) ww wh bc c v v) as (o & F & E & Ro & HF); auto.
  { intros; split; auto; lra. }
  { intros Eb; rewrite (Hc Eb); split; auto; lra. }
  rewrite E; f_equal; eapply Repr_eq; [exact Ro|]; eapply Repr_ext; [exact R|].
  intros x y Hx Hy; cbv beta; destruct (HF x y Hx Hy); lra.
Qed.

(** bytes: every result is a whole number between 0 and 255 *)
Corollary C107_bytes :
  forall (rk sk : R -> R) sg s (im : image R) w h (f : nat -> nat -> Z) ww wh bc c,
  (forall t, 0 <= rk t)%R -> (forall t, 0 <= sk t)%R -> (0 < rk 0)%R -> (0 < sk 0)%R ->
  sched_ok sg -> sched1_ok s -> Repr im w h (fun x y => IZR (f x y)) -> 0 < w -> 0 < h -> 0 < ww -> 0 < wh ->
  (Z.of_nat (w + 2 * ww) <= 2 ^ 62)%Z -> (Z.of_nat (h + 2 * wh) <= 2 ^ 62)%Z ->
  (bc = BMirror -> ww < w /\ wh < h) ->
  (forall x y, x < w -> y < h -> (0 <= f x y <= 255)%Z) -> (0 <= c <= 255)%Z ->
  exists o F, bilateral_filter (fun r => IZR (rtrunc r)) rk sk sg s im [ww; wh] bc (IZR c) = Ok o /\
    Repr o w h (fun x y => IZR (F x y)) /\ forall x y, x < w -> y < h -> (0 <= F x y <= 255)%Z.
Proof.
  intros rk sk sg s im w h f ww wh bc c Rnn Snn R0 S0 Hs Hs1 R Pw Ph Pww Pwh Bw Bh HM Hf Hc.
  assert (T : forall z, rtrunc (IZR z) = z).
  { intros z; unfold rtrunc; rewrite <- opp_IZR, !ColourProofs.Int_part_IZR, Z.opp_involutive; destruct (rleb _ _); auto. }
  destruct (C107_range (fun r => IZR (rtrunc r)) rk sk sg s im w h (fun x y => IZR (f x y)) ww wh bc (IZR c) 0 255)
    as (o & F & E & Ro & HF); auto.
  - intros a b L; apply IZR_le; unfold rtrunc.
    destruct (rleb 0 a) eqn:Ea, (rleb 0 b) eqn:Eb; try (apply SiftProofs.rleb_spec in Ea); try (apply SiftProofs.rleb_spec in Eb);
      try (apply ColourProofs.rleb_false in Ea); try (apply ColourProofs.rleb_false in Eb); try lra.
    + apply ColourProofs.Int_part_le; auto.
    + assert (0 <= Int_part (- a))%Z by (rewrite <- (ColourProofs.Int_part_IZR 0); apply ColourProofs.Int_part_le; lra).
      assert (0 <= Int_part b)%Z by (rewrite <- (ColourProofs.Int_part_IZR 0); apply ColourProofs.Int_part_le; lra). lia.
    + assert (Int_part (- b) <= Int_part (- a))%Z by (apply ColourProofs.Int_part_le; lra). lia.
  - intros a; rewrite T; reflexivity.
  - rewrite T; reflexivity.
  - rewrite T; reflexivity.
  - intros x y Hx Hy; rewrite T; destruct (Hf x y Hx Hy); split; auto; split; apply IZR_le; auto.
  - intros _; rewrite T; split; auto; split; apply IZR_le; lia.
  - exists o, (fun x y => rtrunc (F x y)); split; auto; split.
    + eapply Repr_ext; [exact Ro|]; intros x y Hx Hy; destruct (HF x y Hx Hy); auto.
    + intros x y Hx Hy; destruct (HF x y Hx Hy) as [[B1 B2] C]; rewrite <- C in B1, B2; split; apply le_IZR; auto.
Qed.

(** ** C108: which neighbours count, and how much *)
(** how far apart the program takes two indices of a window to be, along one axis *)
Definition leap (middle u : nat) : R := if middle <=? u then INR (u - middle) else (2 ^ 64 - INR (middle - u))%R.

(** ... and the distance of the position (u, v) = (snd p, fst p) of a ww x wh window from its middle *)
Definition measured (ww wh : nat) (p : nat * nat) : R := sqrt (Rsqr (leap (ww / 2) (snd p)) + Rsqr (leap (wh / 2) (fst p))).

Lemma leap_w64 m u : (Z.of_nat m < 2 ^ 64)%Z -> (Z.of_nat u < 2 ^ 64)%Z -> IZR (w64 (Z.of_nat u - Z.of_nat m)) = leap m u.
Proof.
  intros Hm Hu; unfold leap, w64; destruct (Nat.leb_spec m u) as [L|L].
  - rewrite Z.mod_small by (unfold two64; lia); rewrite INR_IZR_INZ; f_equal; lia.
  - replace ((Z.of_nat u - Z.of_nat m) mod two64)%Z with (2 ^ 64 - Z.of_nat (m - u))%Z.
    + rewrite minus_IZR, INR_IZR_INZ; f_equal; rewrite pow_IZR; f_equal.
    + apply Z.mod_unique with (-1)%Z; unfold two64; lia.
Qed.

Lemma leap_dist ww wh u v : (Z.of_nat ww < 2 ^ 64)%Z -> (Z.of_nat wh < 2 ^ 64)%Z -> u < ww -> v < wh ->
  sdist [u; v] (middle [ww; wh]) = measured ww wh (v, u).
Proof.
  intros Bw Bh Hu Hv; cbn [middle map].
  assert (ww / 2 <= ww) by (apply Nat.div_le_upper_bound; lia); assert (wh / 2 <= wh) by (apply Nat.div_le_upper_bound; lia).
  rewrite sdist2, !leap_w64 by lia; rewrite Rplus_0_l; reflexivity.
Qed.

Lemma img2_ReprN {A} w h (G : nat -> nat -> A) : ReprN (img2 w h G) [w; h] (fun idx => G (nth 0 idx 0) (nth 1 idx 0)).
Proof.
  rewrite <- (tab_img2 w h (fun idx => G (nth 0 idx 0) (nth 1 idx 0)) G) by reflexivity; apply tab_ReprN.
Qed.

Lemma bvalue_img2 cast rk sk ww wh (G : nat -> nat -> R) :
  0 < ww -> 0 < wh -> (Z.of_nat ww < 2 ^ 64)%Z -> (Z.of_nat wh < 2 ^ 64)%Z ->
  bvalue cast rk sk [ww; wh] (fun idx => G (nth 0 idx 0) (nth 1 idx 0)) =
  cast (wmean (fun p => G (snd p) (fst p))
              (fun p => rk (Rabs (G (snd p) (fst p) - G (Nat.div ww 2) (Nat.div wh 2))) *
                        sk (measured ww wh p))%R (grid wh ww)).
Proof.
  intros Pw Ph Bw Bh; unfold bvalue; f_equal; rewrite grid_seq, wmean_map, prodn2, (Nat.mul_comm ww wh).
  apply wmean_ext; intros k Hk; apply in_seq0 in Hk; cbn [unoff nth fst snd].
  - assert (k / ww < wh) by (apply Nat.div_lt_upper_bound; lia); rewrite (Nat.mod_small (k / ww) wh) by lia; reflexivity.
  - assert (k / ww < wh) by (apply Nat.div_lt_upper_bound; lia).
    assert (k mod ww < ww) by (apply Nat.mod_upper_bound; lia).
    unfold bweight; cbn [unoff]; rewrite (Nat.mod_small (k / ww) wh) by lia.
    rewrite leap_dist by auto; cbn [middle map nth]; reflexivity.
Qed.

(** The pixels are visited one after the other.  Every result is the mean of the window around the pixel, where the pixels
    already visited count with their result, the others and those around the picture with their original; the weights are
    the range kernel of the difference times the spatial kernel of the distance - as the program measures it. *)
Theorem C108_sequential :
  forall (cast rk sk : R -> R) sg (im : image R) w h f ww wh bc c,
  (forall t, 0 <= rk t)%R -> (forall t, 0 <= sk t)%R -> (0 < rk 0)%R -> (0 < sk 0)%R ->
  sched_ok sg -> Repr im w h f -> 0 < w -> 0 < h -> 0 < ww -> 0 < wh ->
  (Z.of_nat (w + 2 * ww) <= 2 ^ 62)%Z -> (Z.of_nat (h + 2 * wh) <= 2 ^ 62)%Z ->
  (bc = BMirror -> ww < w /\ wh < h) ->
  exists o F, bilateral_filter cast rk sk sg seq0 im [ww; wh] bc c = Ok o /\ Repr o w h F /\
    forall x y, x < w -> y < h ->
      let value := fun p : nat * nat =>
        let X := (Z.of_nat x + Z.of_nat (snd p) - Z.of_nat (ww / 2))%Z in
        let Y := (Z.of_nat y + Z.of_nat (fst p) - Z.of_nat (wh / 2))%Z in
        if ((0 <=? X) && (X <? Z.of_nat w) && ((0 <=? Y) && (Y <? Z.of_nat h)) && ((Y <? Z.of_nat y) || ((Y =? Z.of_nat y) && (X <? Z.of_nat x))))%Z%bool
        then F (Z.to_nat X) (Z.to_nat Y) else extend bc w h f c X Y in
      F x y = cast (wmean value (fun p =>
        rk (Rabs (value p - f x y)) * sk (measured ww wh p))%R (grid wh ww)).
Proof.
  intros cast rk sk sg im w h f ww wh bc c Rnn Snn R0 S0 Hs Ri Pw Ph Pww Pwh Bw Bh HM.
  assert (Pn : 0 < prodn [ww; wh]) by (rewrite prodn2; nia).
  rewrite bilateral_pure by (auto; discriminate).
  destruct (padded_Repr sg im w h f ww wh bc c) as (pad & E & Rp); auto; try (unfold fits, two64; lia).
  destruct (C28_sequential_partial _ 0%R sg im w h f ww wh (bfilter cast rk sk [ww; wh]) bc c) as (pad' & P & o & F & E' & Rp' & Eo & Ro & HF); auto.
  rewrite E in E'; injection E' as <-.
  exists o, F; split; [exact Eo|]; split; [exact Ro|]; intros x y Hx Hy; cbv zeta.
  rewrite (HF x y Hx Hy); clear HF.
  match goal with |- context [img2 ww wh ?g] => set (G := g) end.
  rewrite (bfilter_ok cast rk sk Rnn Snn R0 S0 [ww; wh] _ _ ltac:(discriminate) Pn (img2_ReprN _ _ _)).
  assert (D1 : ww / 2 <= ww) by (apply Nat.div_le_upper_bound; lia).
  assert (D2 : wh / 2 <= wh) by (apply Nat.div_le_upper_bound; lia).
  assert (M1 : ww / 2 < ww) by (apply Nat.div_lt; lia); assert (M2 : wh / 2 < wh) by (apply Nat.div_lt; lia).
  assert (HP : forall p q, p < w + 2 * ww -> q < h + 2 * wh -> P p q = extend bc w h f c (Z.of_nat p - Z.of_nat ww) (Z.of_nat q - Z.of_nat wh)).
  { intros p q Hp Hq; pose proof (at_Repr _ _ _ _ _ _ Rp' Hp Hq) as A1; pose proof (at_Repr _ _ _ _ _ _ Rp Hp Hq) as A2.
    rewrite A1 in A2; injection A2 as A2; exact A2. }
  rewrite bvalue_img2 by lia; f_equal.
  match goal with |- _ = wmean ?val _ _ => set (value := val) end.
  assert (HG : forall p, In p (grid wh ww) -> G (snd p) (fst p) = value p).
  { intros [v u] Hp; apply in_grid in Hp; destruct Hp as [Hv Hu]; cbn [fst snd] in Hv, Hu; unfold G, value; cbn [fst snd]; cbv zeta.
    set (p := x + (ww - ww / 2) + u); set (q := y + (wh - wh / 2) + v).
    replace (Z.of_nat x + Z.of_nat u - Z.of_nat (ww / 2))%Z with (Z.of_nat p - Z.of_nat ww)%Z by (unfold p; lia).
    replace (Z.of_nat y + Z.of_nat v - Z.of_nat (wh / 2))%Z with (Z.of_nat q - Z.of_nat wh)%Z by (unfold q; lia).
    assert (Hp : p < w + 2 * ww) by (unfold p; lia); assert (Hq : q < h + 2 * wh) by (unfold q; lia).
    rewrite HP by auto; clearbody p q.
    match goal with |- (if ?a then _ else _) = (if ?b then _ else _) => replace b with a end.
    - destruct ((_ && _) && _) eqn:Eb; auto; f_equal; lia.
    - destruct (Nat.leb_spec ww p), (Nat.ltb_spec p (ww + w)), (Nat.leb_spec wh q), (Nat.ltb_spec q (wh + h)); cbn [andb]; try lia.
      replace (0 <=? Z.of_nat p - Z.of_nat ww)%Z with true by lia; replace (Z.of_nat p - Z.of_nat ww <? Z.of_nat w)%Z with true by lia.
      replace (0 <=? Z.of_nat q - Z.of_nat wh)%Z with true by lia; replace (Z.of_nat q - Z.of_nat wh <? Z.of_nat h)%Z with true by lia.
      cbn [andb]; set (a := p - ww) in *; set (b := q - wh) in *.
      replace (Z.of_nat p - Z.of_nat ww)%Z with (Z.of_nat a) by lia; replace (Z.of_nat q - Z.of_nat wh)%Z with (Z.of_nat b) by lia.
      assert (H3 : a < w) by lia.
      clearbody a b; clear - Hx H3; destruct (Nat.lt_trichotomy b y) as [L|[L|L]].
      + assert ((b + 1) * w <= y * w) by (apply Nat.mul_le_mono_r; lia); lia.
      + subst b; lia.
      + assert ((y + 1) * w <= b * w) by (apply Nat.mul_le_mono_r; lia); lia. }
  assert (HC : G (ww / 2) (wh / 2) = f x y).
  { change (G (snd (wh / 2, ww / 2)) (fst (wh / 2, ww / 2)) = f x y); rewrite HG by (apply in_grid; auto).
    unfold value; cbn [fst snd]; cbv zeta.
    replace (Z.of_nat x + Z.of_nat (ww / 2) - Z.of_nat (ww / 2))%Z with (Z.of_nat x) by lia.
    replace (Z.of_nat y + Z.of_nat (wh / 2) - Z.of_nat (wh / 2))%Z with (Z.of_nat y) by lia.
    rewrite !Z.ltb_irrefl, andb_false_r, orb_false_r, andb_false_r; unfold extend; destruct bc.
    - replace ((0 <=? Z.of_nat x)%Z && (Z.of_nat x <? Z.of_nat w)%Z && ((0 <=? Z.of_nat y)%Z && (Z.of_nat y <? Z.of_nat h)%Z)) with true by lia.
      f_equal; lia.
    - unfold reflectZ; f_equal;
        repeat match goal with |- context [if ?b then _ else _] => destruct b eqn:? end; lia.
    - unfold clampZ; f_equal; lia. }
  apply wmean_ext; intros p Hp; [auto|]; rewrite HG, HC by auto; reflexivity.
Qed.
Print Assumptions C108_sequential.

Lemma measured_far ww wh v u : (Z.of_nat ww <= 2 ^ 62)%Z -> (Z.of_nat wh <= 2 ^ 62)%Z -> u < ww -> v < wh ->
  u < ww / 2 \/ v < wh / 2 -> (2 ^ 63 <= measured ww wh (v, u))%R.
Proof.
  intros Bw Bh Hu Hv D; unfold measured; cbn [fst snd].
  assert (K : forall m k n, (Z.of_nat n <= 2 ^ 62)%Z -> k < n -> k < m -> m <= n -> (2 ^ 63 <= leap m k)%R).
  { intros m k n Hn Hk L Hm; unfold leap; destruct (Nat.leb_spec m k); [lia|].
    assert (INR (m - k) <= 2 ^ 62)%R.
    { rewrite INR_IZR_INZ, (pow_IZR 2 62); apply IZR_le; lia. }
    lra. }
  assert (ww / 2 <= ww) by (apply Nat.div_le_upper_bound; lia); assert (wh / 2 <= wh) by (apply Nat.div_le_upper_bound; lia).
  set (a := leap (ww / 2) u) in *; set (b := leap (wh / 2) v) in *.
  pose proof (Rle_0_sqr a) as A0; pose proof (Rle_0_sqr b) as B0.
  destruct D as [D|D].
  - apply Rle_trans with a; [apply (K _ _ ww); auto|].
    assert (0 <= a)%R by (apply Rle_trans with (2 ^ 63)%R; [apply pow_le; lra | apply (K _ _ ww); auto]).
    rewrite <- (sqrt_Rsqr a) at 1 by auto; apply sqrt_le_1; lra.
  - apply Rle_trans with b; [apply (K _ _ wh); auto|].
    assert (0 <= b)%R by (apply Rle_trans with (2 ^ 63)%R; [apply pow_le; lra | apply (K _ _ wh); auto]).
    rewrite <- (sqrt_Rsqr b) at 1 by auto; apply sqrt_le_1; lra.
Qed.

Lemma measured_near ww wh v u : measured ww wh (wh / 2 + v, ww / 2 + u) = sqrt (Rsqr (INR u) + Rsqr (INR v)).
Proof.
  unfold measured, leap; cbn [fst snd].
  destruct (Nat.leb_spec (ww / 2) (ww / 2 + u)); [|lia]; destruct (Nat.leb_spec (wh / 2) (wh / 2 + v)); [|lia].
  do 3 f_equal; f_equal; lia.
Qed.

Lemma rsum_tail (g : nat -> R) m n : m <= n -> (forall i, i < m -> g i = 0%R) -> rsum g (seq 0 n) = rsum (fun i => g (m + i)) (seq 0 (n - m)).
Proof.
  intros L Z; replace n with (m + (n - m)) at 1 by lia; rewrite seq_app.
  rewrite (bsum_app 0%R Rplus r0r rC rA), rsum_zero by (intros i Hi; apply in_seq0 in Hi; auto); rewrite Rplus_0_l, Nat.add_0_l.
  generalize (n - m) as k; induction k as [|k IH]; [reflexivity|].
  rewrite !seq_S, !(bsum_app 0%R Rplus r0r rC rA), IH, !rsum_cons, !rsum_nil, Nat.add_0_l; reflexivity.
Qed.

Lemma rsum_quarter (g : nat * nat -> R) a b h w : a <= h -> b <= w ->
  (forall v u, v < h -> u < w -> v < a \/ u < b -> g (v, u) = 0%R) ->
  rsum g (grid h w) = rsum (fun p => g (a + fst p, b + snd p)) (grid (h - a) (w - b)).
Proof.
  intros La Lb Z; rewrite !rsum_grid; rewrite (rsum_tail _ a) by (auto; intros i Hi; apply rsum_zero; intros u Hu; apply in_seq0 in Hu; apply Z; auto; lia).
  apply rsum_ext; intros i Hi; apply in_seq0 in Hi; cbn [fst snd].
  apply (rsum_tail (fun x => g (a + i, x))); auto; intros u Hu; apply Z; lia.
Qed.

(** A spatial kernel that has died out at 2^63 ignores everything to the left of the pixel and above it: what is left is
    the mean of the quarter of the window to the right of the pixel and below it, the pixel included; none of these has
    been visited before. *)
Theorem C108_quarter :
  forall (cast rk sk : R -> R) sg (im : image R) w h f ww wh bc c,
  (forall t, 0 <= rk t)%R -> (forall t, 0 <= sk t)%R -> (0 < rk 0)%R -> (0 < sk 0)%R -> (forall t, 2 ^ 63 <= t -> sk t = 0)%R ->
  sched_ok sg -> Repr im w h f -> 0 < w -> 0 < h -> 0 < ww -> 0 < wh ->
  (Z.of_nat (w + 2 * ww) <= 2 ^ 62)%Z -> (Z.of_nat (h + 2 * wh) <= 2 ^ 62)%Z ->
  (bc = BMirror -> ww < w /\ wh < h) ->
  exists o, bilateral_filter cast rk sk sg seq0 im [ww; wh] bc c = Ok o /\
    Repr o w h (fun x y =>
      let value := fun p : nat * nat => extend bc w h f c (Z.of_nat (x + snd p)) (Z.of_nat (y + fst p)) in
      cast (wmean value (fun p => rk (Rabs (value p - f x y)) * sk (sqrt (Rsqr (INR (snd p)) + Rsqr (INR (fst p)))))%R
                  (grid (wh - wh / 2) (ww - ww / 2)))).
Proof.
  intros cast rk sk sg im w h f ww wh bc c Rnn Snn R0 S0 Far Hs Ri Pw Ph Pww Pwh Bw Bh HM.
  destruct (C108_sequential cast rk sk sg im w h f ww wh bc c) as (o & F & E & Ro & HF); auto.
  exists o; split; auto; eapply Repr_ext; [exact Ro|]; intros x y Hx Hy.
  rewrite (HF x y Hx Hy); clear HF; cbv zeta.
  assert (D1 : ww / 2 <= ww) by (apply Nat.div_le_upper_bound; lia).
  assert (D2 : wh / 2 <= wh) by (apply Nat.div_le_upper_bound; lia).
  match goal with |- cast (wmean ?val _ _) = _ => set (value := val) end.
  match goal with |- cast (wmean _ ?wt _) = _ => set (weights := wt) end.
  assert (Z : forall v u, v < wh -> u < ww -> v < wh / 2 \/ u < ww / 2 -> weights (v, u) = 0%R).
  { intros v u Hv Hu D; unfold weights; rewrite Far; [apply Rmult_0_r|]; apply measured_far; try lia; tauto. }
  assert (V : forall p, value (wh / 2 + fst p, ww / 2 + snd p) = extend bc w h f c (Z.of_nat (x + snd p)) (Z.of_nat (y + fst p))).
  { intros [v u]; unfold value; cbn [fst snd]; cbv zeta.
    replace (Z.of_nat x + Z.of_nat (ww / 2 + u) - Z.of_nat (ww / 2))%Z with (Z.of_nat (x + u)) by lia.
    replace (Z.of_nat y + Z.of_nat (wh / 2 + v) - Z.of_nat (wh / 2))%Z with (Z.of_nat (y + v)) by lia.
    match goal with |- (if ?b then _ else _) = _ => replace b with false by lia end; reflexivity. }
  f_equal; unfold wmean at 1.
  rewrite (rsum_quarter weights (wh / 2) (ww / 2) wh ww D2 D1 Z).
  rewrite (rsum_quarter (fun i => value i * weights i)%R (wh / 2) (ww / 2) wh ww D2 D1) by (intros; rewrite Z by auto; ring).
  change (wmean (fun p => value (wh / 2 + fst p, ww / 2 + snd p)) (fun p => weights (wh / 2 + fst p, ww / 2 + snd p))
            (grid (wh - wh / 2) (ww - ww / 2)) = wmean (fun p => extend bc w h f c (Z.of_nat (x + snd p)) (Z.of_nat (y + fst p)))
            (fun p => rk (Rabs (extend bc w h f c (Z.of_nat (x + snd p)) (Z.of_nat (y + fst p)) - f x y)) *
                      sk (sqrt (Rsqr (INR (snd p)) + Rsqr (INR (fst p)))))%R (grid (wh - wh / 2) (ww - ww / 2))).
  apply wmean_ext; intros p Hp; [apply V|].
  change (weights (wh / 2 + fst p, ww / 2 + snd p)) with
    (rk (Rabs (value (Nat.add (wh / 2)%nat (fst p), Nat.add (ww / 2)%nat (snd p)) - f x y)) *
     sk (measured ww wh (Nat.add (wh / 2)%nat (fst p), Nat.add (ww / 2)%nat (snd p))))%R.
  rewrite V, measured_near; reflexivity.
Qed.
Print Assumptions C108_quarter.

Lemma extend_swap bc w h f c X Y : extend bc h w (fun x y => f y x) c X Y = extend bc w h f c Y X.
Proof.
  unfold extend; destruct bc; auto.
  match goal with |- (if ?a then _ else _) = (if ?b then _ else _) => replace b with a by (rewrite andb_comm; auto); destruct a; auto end.
Qed.

Lemma wmean_swap (v wt : nat * nat -> R) h w :
  wmean v wt (grid h w) = wmean (fun p => v (snd p, fst p)) (fun p => wt (snd p, fst p)) (grid w h).
Proof.
  unfold wmean; rewrite !rsum_grid; cbn [fst snd].
  rewrite (rsum_swap (fun y x => v (y, x) * wt (y, x))%R), (rsum_swap (fun y x => wt (y, x))); reflexivity.
Qed.

(** rows and columns are treated alike: filtering the transposed picture gives the transposed result *)
Theorem C108_transposed :
  forall (cast rk sk : R -> R) sg (im im' : image R) w h f ww wh bc c,
  (forall t, 0 <= rk t)%R -> (forall t, 0 <= sk t)%R -> (0 < rk 0)%R -> (0 < sk 0)%R -> (forall t, 2 ^ 63 <= t -> sk t = 0)%R ->
  sched_ok sg -> Repr im w h f -> Repr im' h w (fun x y => f y x) -> 0 < w -> 0 < h -> 0 < ww -> 0 < wh ->
  (Z.of_nat (w + 2 * ww) <= 2 ^ 62)%Z -> (Z.of_nat (h + 2 * wh) <= 2 ^ 62)%Z ->
  (bc = BMirror -> ww < w /\ wh < h) ->
  exists o o' F, bilateral_filter cast rk sk sg seq0 im [ww; wh] bc c = Ok o /\ Repr o w h F /\
    bilateral_filter cast rk sk sg seq0 im' [wh; ww] bc c = Ok o' /\ Repr o' h w (fun x y => F y x).
Proof.
  intros cast rk sk sg im im' w h f ww wh bc c Rnn Snn R0 S0 Far Hs Ri Ri' Pw Ph Pww Pwh Bw Bh HM.
  destruct (C108_quarter cast rk sk sg im w h f ww wh bc c) as (o & E & Ro); auto.
  destruct (C108_quarter cast rk sk sg im' h w (fun x y => f y x) wh ww bc c) as (o' & E' & Ro'); auto.
  { intros Eb; destruct (HM Eb); auto. }
  exists o, o', (fun x y => 
      let value := fun p : nat * nat => extend bc w h f c (Z.of_nat (x + snd p)) (Z.of_nat (y + fst p)) in
      cast (wmean value (fun p => rk (Rabs (value p - f x y)) * sk (sqrt (Rsqr (INR (snd p)) + Rsqr (INR (fst p)))))%R
                  (grid (wh - wh / 2) (ww - ww / 2)))).
  split; auto; split; auto; split; auto; eapply Repr_ext; [exact Ro'|]; intros x y Hx Hy; cbv zeta.
  rewrite wmean_swap; f_equal; apply wmean_ext; intros [a b] Hp; cbn [fst snd]; rewrite extend_swap; auto.
  rewrite (Rplus_comm (Rsqr (INR a))); reflexivity.
Qed.
Print Assumptions C108_transposed.

(** left and right are not: the picture 0 0 4 with windows of three pixels and equal weights nearby *)
Definition nearby (t : R) : R := if rleb t 2 then 1%R else 0%R.
Definition row3 (a b c : R) : image R := mkImage [3; 1] [a; b; c].

Lemma row3_Repr a b c : Repr (row3 a b c) 3 1 (fun x _ => if x =? 0 then a else if x =? 1 then b else c).
Proof.
  split; [reflexivity|]; split; [reflexivity|]; intros x y Hx Hy; destruct y; [|lia]; destruct x as [|[|[|x]]]; try lia; reflexivity.
Qed.

Lemma nearby_facts : (forall t, 0 <= nearby t)%R /\ (0 < nearby 0)%R /\ (forall t, 2 ^ 63 <= t -> nearby t = 0)%R.
Proof.
  unfold nearby; split; [intros t; destruct (rleb t 2); lra|]; split.
  - rewrite (proj2 (SiftProofs.rleb_spec 0 2)) by lra; lra.
  - intros t H; rewrite (proj2 (ColourProofs.rleb_false t 2)); auto; lra.
Qed.

Lemma row3_filtered a b c :
  bilateral_filter (fun r => r) (fun _ => 1%R) nearby grid seq0 (row3 a b c) [3; 1] BReplicate 0%R =
  Ok (row3 ((a + b) / 2) ((b + c) / 2) c).
Proof.
  destruct nearby_facts as (N1 & N2 & N3).
  destruct (C108_quarter (fun r => r) (fun _ => 1%R) nearby grid (row3 a b c) 3 1
    (fun x _ => if x =? 0 then a else if x =? 1 then b else c) 3 1 BReplicate 0%R)
    as (o & E & Ro);
    [intros; lra | exact N1 | lra | exact N2 | exact N3 | apply sched_ok_grid | apply row3_Repr | lia | lia | lia | lia | lia | lia | discriminate |].
  rewrite E; f_equal; eapply Repr_eq; [exact Ro|]; eapply Repr_ext; [apply row3_Repr|].
  assert (W : forall k, k <= 1 -> nearby (sqrt (Rsqr (INR k) + Rsqr (INR 0))) = 1%R).
  { intros k Hk; unfold nearby; rewrite (proj2 (SiftProofs.rleb_spec _ 2)); auto.
    replace (Rsqr (INR k) + Rsqr (INR 0))%R with (Rsqr (INR k)) by (cbn [INR]; unfold Rsqr; ring).
    rewrite sqrt_Rsqr by apply pos_INR; replace 2%R with (INR 2) by (cbn; lra); apply le_INR; lia. }
  intros x y Hx Hy; destruct y; [|lia]; cbv beta zeta; unfold wmean, extend.
  change (grid (1 - 1 / 2) (3 - 3 / 2)) with [(0, 0); (0, 1)]; rewrite !rsum_cons, !rsum_nil; cbn [fst snd].
  rewrite !W by lia; destruct x as [|[|[|x]]]; try lia;
    repeat match goal with |- context [Z.to_nat ?e] => let v := eval vm_compute in (Z.to_nat e) in change (Z.to_nat e) with v end;
    cbn [Nat.eqb]; field.
Qed.

Theorem C108_mirrored_refuted :
  exists (im im' o o' : image R) f F F',
    Repr im 3 1 f /\ Repr im' 3 1 (fun x y => f (2 - x) y) /\
    bilateral_filter (fun r => r) (fun _ => 1%R) nearby grid seq0 im [3; 1] BReplicate 0%R = Ok o /\ Repr o 3 1 F /\
    bilateral_filter (fun r => r) (fun _ => 1%R) nearby grid seq0 im' [3; 1] BReplicate 0%R = Ok o' /\ Repr o' 3 1 F' /\
    F' 1 0 <> F (2 - 1) 0.
Proof.
  exists (row3 0 0 4), (row3 4 0 0); eexists; eexists; eexists; eexists; eexists.
  split; [apply row3_Repr|]; split.
  { eapply Repr_ext; [apply row3_Repr|]; intros x y Hx Hy; destruct x as [|[|[|x]]]; try lia; reflexivity. }
  split; [apply row3_filtered|]; split; [apply row3_Repr|]; split; [apply row3_filtered|]; split; [apply row3_Repr|].
  cbn; lra.
Qed.
Print Assumptions C108_mirrored_refuted.

Example C107_example :
  bilateral_filter (fun r => r) (fun _ => 1%R) nearby grid seq0 (row3 0 0 4) [3; 1] BReplicate 0%R = Ok (row3 0 2 4).
Proof. rewrite row3_filtered; do 2 f_equal; lra. Qed.

(** ** C109: the distance of two patches *)
(** the pixel (u, v) of the pw x ph patch around (cx, cy); outside the picture it is 0 *)
Definition patch (w h : nat) (f : nat -> nat -> R) (pw ph cx cy u v : nat) : R :=
  let X := (Z.of_nat cx - Z.of_nat (pw / 2) + Z.of_nat u)%Z in
  let Y := (Z.of_nat cy - Z.of_nat (ph / 2) + Z.of_nat v)%Z in
  if ((0 <=? X) && (X <? Z.of_nat w) && ((0 <=? Y) && (Y <? Z.of_nat h)))%Z then f (Z.to_nat X) (Z.to_nat Y) else 0%R.

Lemma rsuml_rsum {I} (g : I -> R) l : rsuml (map g l) = rsum g l.
Proof. induction l as [|i l IH]; [reflexivity|]; rewrite rsum_cons, <- IH; reflexivity. Qed.

Lemma Repr_pix {A} (im : image A) w h f : Repr im w h f -> pix im = map (fun p => f (snd p) (fst p)) (grid h w).
Proof.
  intros H; assert (E : im = img2 w h f); [|rewrite E; reflexivity].
  apply Repr_ReprN in H; eapply ReprN_unique; [exact H | apply img2_ReprN | reflexivity].
Qed.

(** whatever the order in which the squares are added *)
Theorem C109_distance :
  forall (im : image R) w h f pw ph px py qx qy r,
  Repr im w h f -> 0 < pw -> 0 < ph -> (Z.of_nat w <= 2 ^ 63)%Z -> (Z.of_nat h <= 2 ^ 63)%Z ->
  fits (px + pw) -> fits (py + ph) -> fits (qx + pw) -> fits (qy + ph) ->
  (patch_distance im [px; py] [qx; qy] [pw; ph] r <->
   r = Ok (rsum (fun p => Rsqr (patch w h f pw ph px py (snd p) (fst p) - patch w h f pw ph qx qy (snd p) (fst p))) (grid ph pw) /
           INR (pw * ph))%R).
Proof.
  intros im w h f pw ph px py qx qy r Ri Pw Ph Bw Bh Fpx Fpy Fqx Fqy.
  destruct (subimage_Repr 0%R im w h f pw ph px py 0%R) as (a & Ea & Ra); auto.
  destruct (subimage_Repr 0%R im w h f pw ph qx qy 0%R) as (b & Eb & Rb); auto.
  unfold patch_distance; rewrite Ea, Eb; cbn [bind].
  apply Repr_ReprN in Ra; apply Repr_ReprN in Rb.
  destruct (pixelwise2_ReprN (fun x y => ((x - y) * (x - y))%R) a b _ _ _ Ra Rb) as (o & Eo & Ro); [rewrite prodn2; nia|].
  rewrite Eo; pose proof (ReprN_dims _ _ _ Ro) as Do; unfold count; rewrite Do, prodn2.
  destruct (Nat.eqb_spec (pw * ph) 0); [nia|].
  assert (Sm : rsuml (0%R :: pix o) =
    rsum (fun p => Rsqr (patch w h f pw ph px py (snd p) (fst p) - patch w h f pw ph qx qy (snd p) (fst p))) (grid ph pw)).
  { change (0 + rsuml (pix o) = rsum (fun p => Rsqr (patch w h f pw ph px py (snd p) (fst p) - patch w h f pw ph qx qy (snd p) (fst p))) (grid ph pw))%R.
    rewrite (Repr_pix o pw ph (fun u v => Rsqr (patch w h f pw ph px py u v - patch w h f pw ph qx qy u v))).
    - rewrite rsuml_rsum; ring.
    - apply Repr_ReprN; refine (ReprN_ext _ _ _ _ Ro _); intros idx I.
      destruct idx as [|u [|v [|z zz]]]; try (apply in_range_length in I; simpl in I; lia); reflexivity. }
  rewrite <- Sm; split.
  - intros (s & Hs & ->); apply reduces_r in Hs; rewrite Hs; reflexivity.
  - intros ->; destruct (HistProofs.reduces_exists Rplus (0%R :: pix o)) as (s & Hs); [discriminate|].
    exists s; split; [exact Hs|]; apply reduces_r in Hs; rewrite Hs; reflexivity.
Qed.
Print Assumptions C109_distance.

(** it does not matter which patch comes first; it is never negative and 0 only for equal patches *)
Theorem C109_metric :
  forall (im : image R) w h f pw ph px py qx qy,
  Repr im w h f -> 0 < pw -> 0 < ph -> (Z.of_nat w <= 2 ^ 63)%Z -> (Z.of_nat h <= 2 ^ 63)%Z ->
  fits (px + pw) -> fits (py + ph) -> fits (qx + pw) -> fits (qy + ph) ->
  exists d, patch_distance im [px; py] [qx; qy] [pw; ph] (Ok d) /\ patch_distance im [qx; qy] [px; py] [pw; ph] (Ok d) /\
    (0 <= d)%R /\
    (d = 0%R <-> forall u v, u < pw -> v < ph -> patch w h f pw ph px py u v = patch w h f pw ph qx qy u v).
Proof.
  intros im w h f pw ph px py qx qy Ri Pw Ph Bw Bh Fpx Fpy Fqx Fqy.
  eexists; split; [apply (proj2 (C109_distance im w h f pw ph px py qx qy _ Ri Pw Ph Bw Bh Fpx Fpy Fqx Fqy)); reflexivity|].
  split.
  { apply (proj2 (C109_distance im w h f pw ph qx qy px py _ Ri Pw Ph Bw Bh Fqx Fqy Fpx Fpy)).
    do 2 f_equal; apply rsum_ext; intros p _; rewrite Ropp_minus_distr' || idtac; unfold Rsqr; ring. }
  assert (Pn : (0 < / INR (pw * ph))%R) by (apply Rinv_0_lt_compat, lt_0_INR; nia).
  match goal with |- (0 <= ?s / _)%R /\ _ => set (sm := s) end.
  assert (Nn : (0 <= sm)%R) by (apply rsum_nonneg; intros; apply Rle_0_sqr).
  split; [apply Rmult_le_pos; lra|]; split.
  - intros E u v Hu Hv; unfold Rdiv in E; apply Rmult_integral in E; destruct E as [E|E]; [|lra].
    pose proof (rsum_ge_term (fun p => Rsqr (patch w h f pw ph px py (snd p) (fst p) - patch w h f pw ph qx qy (snd p) (fst p)))
                  (grid ph pw) (v, u) (fun p _ => Rle_0_sqr _)) as T.
    assert (I : In (v, u) (grid ph pw)) by (apply in_grid; auto).
    specialize (T I); fold sm in T; cbn [fst snd] in T.
    pose proof (Rle_0_sqr (patch w h f pw ph px py u v - patch w h f pw ph qx qy u v)) as Q.
    assert (Z : Rsqr (patch w h f pw ph px py u v - patch w h f pw ph qx qy u v) = 0%R) by lra.
    apply Rsqr_0_uniq in Z; lra.
  - intros H; replace sm with 0%R; [unfold Rdiv; ring|]; symmetry; apply rsum_zero; intros p Hp; apply in_grid in Hp.
    rewrite H by tauto; unfold Rsqr; ring.
Qed.
Print Assumptions C109_metric.

(** the weight of a patch: 1 for an equal one, less for the others, and the less the greater the distance *)
Theorem C109_weight :
  forall h d1 d2, h <> 0%R -> (0 <= d1)%R -> (0 <= d2)%R ->
  (0 < default_weight h d1 <= 1)%R /\ (default_weight h d1 = 1%R <-> d1 = 0%R) /\
  ((d1 < d2)%R <-> (default_weight h d2 < default_weight h d1)%R).
Proof.
  intros h d1 d2 Hh H1 H2; unfold default_weight.
  assert (P : (0 < / (h * h))%R) by (apply Rinv_0_lt_compat; change (0 < Rsqr h)%R; apply Rsqr_pos_lt; auto).
  assert (M : forall a b, (a < b)%R -> (- b / (h * h) < - a / (h * h))%R) by (intros; apply Rmult_lt_compat_r; lra).
  assert (Z : (- 0 / (h * h) = 0)%R) by (unfold Rdiv; ring).
  split; [split; [apply exp_pos|]|]; [|split; split].
  - rewrite <- exp_0; destruct H1 as [H1 | <-]; [left; apply exp_increasing; rewrite <- Z; apply M; auto | rewrite Z; lra].
  - intros E; destruct H1 as [H1 | <-]; auto; exfalso.
    assert (exp (- d1 / (h * h)) < exp 0)%R by (apply exp_increasing; rewrite <- Z; apply M; auto); rewrite exp_0 in *; lra.
  - intros ->; rewrite Z; apply exp_0.
  - intros L; apply exp_increasing, M, L.
  - intros L; apply exp_lt_inv in L; destruct (Rlt_le_dec d1 d2) as [|C]; auto; exfalso.
    assert (- d1 / (h * h) <= - d2 / (h * h))%R by (apply Rmult_le_compat_r; lra); lra.
Qed.
Print Assumptions C109_weight.

Example C109_example :
  patch_distance (row3 1 2 4) [0; 0] [1; 0] [2; 1] (Ok 1%R).
Proof.
  eapply C109_distance; [apply row3_Repr | lia | lia | lia | lia | | | | |]; try (unfold fits, two64; lia).
  change (grid 1 2) with [(0, 0); (0, 1)]; rewrite !rsum_cons, rsum_nil; f_equal.
  change (patch 3 1 (fun x _ : nat => if x =? 0 then 1%R else if x =? 1 then 2%R else 4%R) 2 1 0 0 (snd (0, 0)) (fst (0, 0))) with 0%R.
  change (patch 3 1 (fun x _ : nat => if x =? 0 then 1%R else if x =? 1 then 2%R else 4%R) 2 1 0 0 (snd (0, 1)) (fst (0, 1))) with 1%R.
  change (patch 3 1 (fun x _ : nat => if x =? 0 then 1%R else if x =? 1 then 2%R else 4%R) 2 1 1 0 (snd (0, 0)) (fst (0, 0))) with 1%R.
  change (patch 3 1 (fun x _ : nat => if x =? 0 then 1%R else if x =? 1 then 2%R else 4%R) 2 1 1 0 (snd (0, 1)) (fst (0, 1))) with 2%R.
  replace (INR (2 * 1)) with 2%R by (cbn; lra); unfold Rsqr; lra.
Qed.
