(** PropAngle.v - C157: Gaussian smoothing in a direction. *)
From Coq Require Import Reals Lra ZifyBool ZifyNat.
From Verif Require Import Base ImageModel ImageFacts IndexModel ImageProofs GeomModel GeomProofs CropProofs PixelModel PixelProofs
  BigSum RSum OField JacobiModel SiftModel SiftProofs PropSift PropBmp GaussModel GaussProofs PropGauss TurnModel TurnProofs PropTurn AngleModel.
Open Scope nat_scope.
Ltac Zify.zify_post_hook ::= Z.div_mod_to_equations.

(** ** specification *)
(** the mean of the (2 kx + 1) x (2 ky + 1) pixels around (x, y), with the weights of a Gaussian centred at (x + dx, y + dy) *)
Definition weighted (sx sy : R) (kx ky : nat) (dx dy : R) (p : Z -> Z -> R) (x y : Z) : R :=
  (around kx (fun u => around ky (fun v => gauss sx (IZR u - dx) * gauss sy (IZR v - dy) * p (x + u)%Z (y + v)%Z)) /
   (around kx (fun u => gauss sx (IZR u - dx)) * around ky (fun v => gauss sy (IZR v - dy))))%R.

(** ** sums *)
Lemma around_ext k F G : (forall u, (Z.abs u <= Z.of_nat k)%Z -> F u = G u) -> around k F = around k G.
Proof. intros H; apply rsum_ext; intros i Hi; apply in_seq in Hi; apply H; lia. Qed.
Lemma around_opp k F : around k F = around k (fun u => F (- u)%Z).
Proof.
  unfold around; rewrite rsum_rev; apply rsum_ext; intros i Hi; apply in_seq in Hi; f_equal; lia.
Qed.
Lemma around_swap k l (F : Z -> Z -> R) : around k (fun u => around l (fun v => F u v)) = around l (fun v => around k (fun u => F u v)).
Proof. unfold around; apply (rsum_swap (fun i j => F (Z.of_nat i - Z.of_nat k)%Z (Z.of_nat j - Z.of_nat l)%Z)). Qed.
Lemma gauss_opp s a b : (a = - b)%R -> gauss s a = gauss s b.
Proof. intros ->; unfold gauss; f_equal; f_equal; ring. Qed.

(** the plain smoothing is centred at (x - 1, y - 1) *)
Lemma smoothed_weighted s1 s2 k1 k2 p x y : smoothed s1 s2 k1 k2 p x y = weighted s1 s2 k1 k2 (-1) (-1) p x y.
Proof.
  unfold smoothed, weighted.
  assert (E : forall s u, gauss s (IZR u + 1) = gauss s (IZR u - -1)) by (intros; f_equal; lra).
  rewrite (around_ext k1 (fun u => gauss s1 (IZR u + 1)) _ (fun u _ => E s1 u)), (around_ext k2 (fun u => gauss s2 (IZR u + 1)) _ (fun u _ => E s2 u)); f_equal.
  apply around_ext; intros u Hu; apply around_ext; intros v Hv; rewrite !E; reflexivity.
Qed.
(** turning the picture turns the weights *)
Lemma weighted_half s1 s2 k1 k2 p q x y a b : (forall u v, (Z.abs u <= Z.of_nat k1)%Z -> (Z.abs v <= Z.of_nat k2)%Z -> p (a - u)%Z (b - v)%Z = q (x + u)%Z (y + v)%Z) ->
  weighted s1 s2 k1 k2 (-1) (-1) p a b = weighted s1 s2 k1 k2 1 1 q x y.
Proof.
  intros H; unfold weighted; apply (f_equal2 Rdiv); [|apply (f_equal2 Rmult)].
  - rewrite around_opp; apply around_ext; intros u Hu; rewrite around_opp; apply around_ext; intros v Hv.
    rewrite <- H by lia; apply (f_equal2 Rmult); [apply (f_equal2 Rmult); first [reflexivity | apply gauss_opp; rewrite opp_IZR; lra] | f_equal; lia].
  - rewrite around_opp; apply around_ext; intros u Hu; apply gauss_opp; rewrite opp_IZR; lra.
  - rewrite around_opp; apply around_ext; intros u Hu; apply gauss_opp; rewrite opp_IZR; lra.
Qed.
Lemma weighted_quarter s1 s2 k1 k2 p q x y a b : (forall u v, (Z.abs u <= Z.of_nat k2)%Z -> (Z.abs v <= Z.of_nat k1)%Z -> p (a - v)%Z (b + u)%Z = q (x + u)%Z (y + v)%Z) ->
  weighted s1 s2 k1 k2 (-1) (-1) p a b = weighted s2 s1 k2 k1 (-1) 1 q x y.
Proof.
  intros H; unfold weighted; apply (f_equal2 Rdiv); [|rewrite Rmult_comm; apply (f_equal2 Rmult)].
  - rewrite around_swap; apply around_ext; intros u Hu; rewrite around_opp; apply around_ext; intros v Hv.
    rewrite <- H by lia; rewrite (Rmult_comm (gauss s2 _)); apply (f_equal2 Rmult); [apply (f_equal2 Rmult); first [reflexivity | apply gauss_opp; rewrite opp_IZR; lra] | f_equal; lia].
  - reflexivity.
  - rewrite around_opp; apply around_ext; intros u Hu; apply gauss_opp; rewrite opp_IZR; lra.
Qed.
Lemma weighted_back s1 s2 k1 k2 p q x y a b : (forall u v, (Z.abs u <= Z.of_nat k2)%Z -> (Z.abs v <= Z.of_nat k1)%Z -> p (a + v)%Z (b - u)%Z = q (x + u)%Z (y + v)%Z) ->
  weighted s1 s2 k1 k2 (-1) (-1) p a b = weighted s2 s1 k2 k1 1 (-1) q x y.
Proof.
  intros H; unfold weighted; apply (f_equal2 Rdiv); [|rewrite Rmult_comm; apply (f_equal2 Rmult)].
  - rewrite around_swap; rewrite around_opp; apply around_ext; intros u Hu; apply around_ext; intros v Hv.
    rewrite <- H by lia; rewrite (Rmult_comm (gauss s2 _)); apply (f_equal2 Rmult); [apply (f_equal2 Rmult); first [reflexivity | apply gauss_opp; rewrite opp_IZR; lra] | f_equal; lia].
  - rewrite around_opp; apply around_ext; intros u Hu; apply gauss_opp; rewrite opp_IZR; lra.
  - reflexivity.
Qed.

(** ** the continued picture turns with the picture.  Beyond twice the extents a mirrored picture is not defined *)
Lemma continued_quarter bc w h f c (x y : nat) a b : x < w -> y < h -> (bc = BMirror -> Z.abs a < Z.of_nat w /\ Z.abs b < Z.of_nat h)%Z ->
  continued bc h w (fun i j => f j (h - 1 - i)) c (Z.of_nat (h - 1 - y) - b) (Z.of_nat x + a) = continued bc w h f c (Z.of_nat x + a) (Z.of_nat y + b).
Proof.
  intros X Y M; unfold continued; destruct bc.
  - match goal with |- (if ?p then _ else _) = (if ?q then _ else _) => replace p with q by lia; destruct q eqn:Q; [|reflexivity] end; f_equal; lia.
  - destruct (M eq_refl); f_equal; repeat match goal with |- context [if ?b then _ else _] => destruct b eqn:? end; lia.
  - f_equal; lia.
Qed.
Lemma continued_half bc w h f c (x y : nat) a b : x < w -> y < h -> (bc = BMirror -> Z.abs a < Z.of_nat w /\ Z.abs b < Z.of_nat h)%Z ->
  continued bc w h (fun i j => f (w - 1 - i) (h - 1 - j)) c (Z.of_nat (w - 1 - x) - a) (Z.of_nat (h - 1 - y) - b) = continued bc w h f c (Z.of_nat x + a) (Z.of_nat y + b).
Proof.
  intros X Y M; unfold continued; destruct bc.
  - match goal with |- (if ?p then _ else _) = (if ?q then _ else _) => replace p with q by lia; destruct q eqn:Q; [|reflexivity] end; f_equal; lia.
  - destruct (M eq_refl); f_equal; repeat match goal with |- context [if ?b then _ else _] => destruct b eqn:? end; lia.
  - f_equal; lia.
Qed.
Lemma continued_back bc w h f c (x y : nat) a b : x < w -> y < h -> (bc = BMirror -> Z.abs a < Z.of_nat w /\ Z.abs b < Z.of_nat h)%Z ->
  continued bc h w (fun i j => f (w - 1 - j) i) c (Z.of_nat y + b) (Z.of_nat (w - 1 - x) - a) = continued bc w h f c (Z.of_nat x + a) (Z.of_nat y + b).
Proof.
  intros X Y M; unfold continued; destruct bc.
  - match goal with |- (if ?p then _ else _) = (if ?q then _ else _) => replace p with q by lia; destruct q eqn:Q; [|reflexivity] end; f_equal; lia.
  - destruct (M eq_refl); f_equal; repeat match goal with |- context [if ?b then _ else _] => destruct b eqn:? end; lia.
  - f_equal; lia.
Qed.
(** ** turning *)
Lemma turn_all im w h f r : Repr im w h f -> (Z.of_nat (w + h) < 2 ^ 64)%Z ->
  exists nw nh o g, turn im r = Ok o /\ Repr o nw nh g /\
    rounded_up nw (INR w * Rabs (cos r) + INR h * Rabs (sin r)) /\ rounded_up nh (INR h * Rabs (cos r) + INR w * Rabs (sin r)).
Proof.
  intros Rf F; destruct (C104_default im w h f Rf F) as (val & V & X & _).
  destruct (C104_turned 0%R _ im w h f r val Rf F V X) as (nw & nh & o & g & E & Ro & Cw & Ch & _); exists nw, nh, o, g; auto.
Qed.
Lemma turn_quarters im w h f (k : Z) : Repr im w h f -> (Z.of_nat (w + h) < 2 ^ 64)%Z ->
  (exists o, turn im (2 * PI * IZR k) = Ok o /\ Repr o w h f) /\
  (exists o, turn im (PI / 2 + 2 * PI * IZR k) = Ok o /\ Repr o h w (fun i j => f j (h - 1 - i))) /\
  (exists o, turn im (PI + 2 * PI * IZR k) = Ok o /\ Repr o w h (fun i j => f (w - 1 - i) (h - 1 - j))) /\
  (exists o, turn im (3 * (PI / 2) + 2 * PI * IZR k) = Ok o /\ Repr o h w (fun i j => f (w - 1 - j) i)).
Proof.
  intros Rf F; destruct (C104_default im w h f Rf F) as (val & V & X & _); unfold turn; apply (C104_quarter_turns 0%R _ im w h f k val); auto.
Qed.

Lemma angle_sigma s1 s2 : (0 < s1)%R -> (0 < s2)%R -> rleb s1 0 || rleb s2 0 = false.
Proof. intros H1 H2; apply orb_false_iff; split; apply rleb_false; auto. Qed.

Lemma angle_steps sg s im w h f s1 s2 r n1 n2 bc c t u v vw vh gv : Repr im w h f -> 0 < w -> 0 < h -> (0 < s1)%R -> (0 < s2)%R ->
  turn im r = Ok t -> imgaussfilt2 sg s t s1 s2 n1 n2 bc c = Ok u -> turn u (- r) = Ok v -> Repr v vw vh gv ->
  (Z.of_nat (w + h + vw + vh) <= 2 ^ 63)%Z ->
  exists o, imgaussfilt_angle sg s im s1 s2 r n1 n2 bc c = Ok o /\
    Repr o w h (fun x y =>
        let a := crop_pos (vw / 2) w x in let b := crop_pos (vh / 2) h y in
        if (0 <=? a)%Z && (a <? Z.of_nat vw)%Z && ((0 <=? b)%Z && (b <? Z.of_nat vh)%Z)
        then gv (Z.to_nat a) (Z.to_nat b) else 0%R).
Proof.
  intros Rf Pw Ph S1 S2 Et Eu Ev Rv B; unfold imgaussfilt_angle; rewrite (check2d_Repr _ _ _ _ Rf); cbn [bind]; rewrite angle_sigma by auto.
  rewrite Et; cbn [bind]; rewrite Eu; cbn [bind]; rewrite Ev; cbn [bind].
  rewrite (get_width_Repr _ _ _ _ Rf), (get_height_Repr _ _ _ _ Rf), (get_width_Repr _ _ _ _ Rv), (get_height_Repr _ _ _ _ Rv); cbn [bind].
  apply subimage_Repr; auto; unfold fits, two64; lia.
Qed.
Lemma angle_steps_same sg s im w h f s1 s2 r n1 n2 bc c t u v gv : Repr im w h f -> 0 < w -> 0 < h -> (0 < s1)%R -> (0 < s2)%R ->
  turn im r = Ok t -> imgaussfilt2 sg s t s1 s2 n1 n2 bc c = Ok u -> turn u (- r) = Ok v -> Repr v w h gv ->
  (Z.of_nat (w + h) <= 2 ^ 62)%Z ->
  exists o, imgaussfilt_angle sg s im s1 s2 r n1 n2 bc c = Ok o /\ Repr o w h gv.
Proof.
  intros Rf Pw Ph S1 S2 Et Eu Ev Rv B.
  destruct (angle_steps sg s im w h f s1 s2 r n1 n2 bc c t u v w h gv) as (o & E & Ro); auto; [lia|].
  exists o; split; auto; eapply Repr_ext; [exact Ro|]; intros x y X Y; cbv beta zeta; unfold crop_pos.
  match goal with |- (if ?b then _ else _) = _ => replace b with true by lia end; f_equal; lia.
Qed.

Lemma least_extent nw (w h : nat) r m : rounded_up nw (INR w * Rabs (cos r) + INR h * Rabs (sin r)) -> m <= w -> m <= h -> m <= nw.
Proof.
  intros (_ & C) Mw Mh; apply INR_le; apply le_INR in Mw, Mh; pose proof (pos_INR m).
  assert (1 <= Rabs (cos r) + Rabs (sin r))%R.
  { pose proof (sin2_cos2 r) as E; unfold Rsqr in E; pose proof (abs_cos_le r); pose proof (abs_sin_le r).
    pose proof (Rabs_pos (cos r)); pose proof (Rabs_pos (sin r)).
    assert (Rabs (cos r) * Rabs (cos r) = cos r * cos r)%R by (rewrite <- Rabs_mult, Rabs_pos_eq; nra).
    assert (Rabs (sin r) * Rabs (sin r) = sin r * sin r)%R by (rewrite <- Rabs_mult, Rabs_pos_eq; nra). nra. }
  pose proof (Rabs_pos (cos r)); pose proof (Rabs_pos (sin r)); nra.
Qed.
Lemma most_extent nw (w h : nat) r : rounded_up nw (INR w * Rabs (cos r) + INR h * Rabs (sin r)) -> nw <= w + h.
Proof.
  intros (C & _); assert (INR nw < INR (w + h + 1))%R; [|apply INR_lt in H; lia].
  rewrite !plus_INR; cbn [INR]; pose proof (abs_cos_le r); pose proof (abs_sin_le r); pose proof (pos_INR w); pose proof (pos_INR h).
  pose proof (Rabs_pos (cos r)); pose proof (Rabs_pos (sin r)); nra.
Qed.

(** ** C157 *)
(** any angle: a picture of the same extents *)
Theorem C157_extents sg s im w h f s1 s2 r n1 n2 bc c :
  sched_ok sg -> sched1_ok s -> Repr im w h f -> 0 < w -> 0 < h -> 0 < n1 -> 0 < n2 -> (0 < s1)%R -> (0 < s2)%R ->
  (Z.of_nat (w + h + 3 * n1 + 3 * n2) <= 2 ^ 60)%Z -> (bc = BMirror -> n1 < Nat.min w h /\ n2 < Nat.min w h) ->
  exists o g, imgaussfilt_angle sg s im s1 s2 r n1 n2 bc c = Ok o /\ Repr o w h g.
Proof.
  intros Hg Hs Rf Pw Ph P1 P2 S1 S2 B HM.
  destruct (turn_all im w h f r Rf) as (tw & th & t & ft & Et & Rt & Cw & Ch); [lia|].
  assert (Nat.min w h <= tw) by (apply (least_extent tw w h r); auto; lia); assert (Nat.min w h <= th) by (apply (least_extent th h w r); auto; lia).
  pose proof (most_extent tw w h r Cw); pose proof (most_extent th h w r Ch).
  destruct (imgaussfilt2_Repr sg s t tw th ft s1 s2 n1 n2 bc c) as (u & Eu & Ru); auto; try lia.
  destruct (turn_all u tw th _ (- r) Ru) as (vw & vh & v & gv & Ev & Rv & Cvw & Cvh); [lia|].
  pose proof (most_extent vw tw th _ Cvw); pose proof (most_extent vh th tw _ Cvh).
  destruct (angle_steps sg s im w h f s1 s2 r n1 n2 bc c t u v vw vh gv) as (o & E & Ro); auto; [lia|]; eauto.
Qed.
Print Assumptions C157_extents.

(** whole turns: the plain smoothing *)
Theorem C157_whole_turns sg s im w h f s1 s2 (k : Z) n1 n2 bc c :
  sched_ok sg -> sched1_ok s -> Repr im w h f -> 0 < w -> 0 < h -> 0 < n1 -> 0 < n2 -> (0 < s1)%R -> (0 < s2)%R ->
  (Z.of_nat (w + h + 3 * n1 + 3 * n2) <= 2 ^ 60)%Z -> (bc = BMirror -> n1 < w /\ n2 < h) ->
  imgaussfilt_angle sg s im s1 s2 (2 * PI * IZR k) n1 n2 bc c = imgaussfilt2 sg s im s1 s2 n1 n2 bc c.
Proof.
  intros Hg Hs Rf Pw Ph P1 P2 S1 S2 B HM.
  destruct (turn_quarters im w h f k Rf) as ((t & Et & Rt) & _); [lia|].
  assert (t = im) as -> by (apply (Repr_eq _ _ w h f); auto).
  destruct (imgaussfilt2_Repr sg s im w h f s1 s2 n1 n2 bc c) as (u & Eu & Ru); auto; try lia.
  destruct (turn_quarters u w h _ (- k) Ru) as ((v & Ev & Rv) & _); [lia|].
  rewrite opp_IZR in Ev; replace (2 * PI * - IZR k)%R with (- (2 * PI * IZR k))%R in Ev by ring.
  edestruct (angle_steps_same sg s im w h f s1 s2 (2 * PI * IZR k) n1 n2 bc c im u v) as (o & E & Ro); eauto; [lia|].
  rewrite E, Eu; f_equal; eapply Repr_eq; [exact Ro | exact Ru].
Qed.
Print Assumptions C157_whole_turns.

(** quarter turns, odd filter sizes: the exact value of every pixel.  A quarter turn exchanges the directions of the two standard
    deviations; the centre of the weights lies one pixel beside the pixel, on a side that depends on the angle *)
Theorem C157_quarter_turns sg s im w h f s1 s2 (k : Z) k1 k2 bc c :
  sched_ok sg -> sched1_ok s -> Repr im w h f -> 0 < w -> 0 < h -> (0 < s1)%R -> (0 < s2)%R ->
  (Z.of_nat (w + h + 6 * k1 + 6 * k2 + 6) <= 2 ^ 60)%Z ->
  (bc = BMirror -> Nat.max (2 * k1 + 1) (2 * k2 + 1) < Nat.min w h) ->
  let result r g := exists o, imgaussfilt_angle sg s im s1 s2 r (2 * k1 + 1) (2 * k2 + 1) bc c = Ok o /\ Repr o w h (fun x y => g (continued bc w h f c) (Z.of_nat x) (Z.of_nat y)) in
  result (2 * PI * IZR k)%R (weighted s1 s2 k1 k2 (-1) (-1)) /\
  result (PI / 2 + 2 * PI * IZR k)%R (weighted s2 s1 k2 k1 (-1) 1) /\
  result (PI + 2 * PI * IZR k)%R (weighted s1 s2 k1 k2 1 1) /\
  result (3 * (PI / 2) + 2 * PI * IZR k)%R (weighted s2 s1 k2 k1 1 (-1)).
Proof.
  intros Hg Hs Rf Pw Ph S1 S2 B HM; cbv zeta.
  destruct (turn_quarters im w h f k Rf) as ((t0 & Et0 & Rt0) & (t1 & Et1 & Rt1) & (t2 & Et2 & Rt2) & (t3 & Et3 & Rt3)); [lia|].
  split; [|split; [|split]].
  - destruct (C94_value sg s t0 w h _ s1 s2 k1 k2 bc c Hg Hs Rt0) as (u & Eu & Ru); auto; try lra; try lia.
    destruct (turn_quarters u w h _ (- k) Ru) as ((v & Ev & Rv) & _); [lia|].
    rewrite opp_IZR in Ev; replace (2 * PI * - IZR k)%R with (- (2 * PI * IZR k))%R in Ev by ring.
    edestruct (angle_steps_same sg s im w h f s1 s2 _ _ _ bc c t0 u v _ Rf Pw Ph S1 S2 Et0 Eu Ev Rv) as (o & E & Ro); [lia|].
    exists o; split; auto; eapply Repr_ext; [exact Ro|]; intros x y X Y; cbv beta; apply smoothed_weighted.
  - destruct (C94_value sg s t1 h w _ s1 s2 k1 k2 bc c Hg Hs Rt1) as (u & Eu & Ru); auto; try lra; try lia.
    destruct (turn_quarters u h w _ (- k - 1) Ru) as (_ & _ & _ & (v & Ev & Rv)); [lia|].
    rewrite minus_IZR, opp_IZR in Ev; replace (3 * (PI / 2) + 2 * PI * (- IZR k - 1))%R with (- (PI / 2 + 2 * PI * IZR k))%R in Ev by field.
    edestruct (angle_steps_same sg s im w h f s1 s2 _ _ _ bc c t1 u v _ Rf Pw Ph S1 S2 Et1 Eu Ev Rv) as (o & E & Ro); [lia|].
    exists o; split; auto; eapply Repr_ext; [exact Ro|]; intros x y X Y; cbv beta; rewrite smoothed_weighted; apply weighted_quarter.
    intros a b Ha Hb; apply continued_quarter; auto; intros M; specialize (HM M); lia.
  - destruct (C94_value sg s t2 w h _ s1 s2 k1 k2 bc c Hg Hs Rt2) as (u & Eu & Ru); auto; try lra; try lia.
    destruct (turn_quarters u w h _ (- k - 1) Ru) as (_ & _ & (v & Ev & Rv) & _); [lia|].
    rewrite minus_IZR, opp_IZR in Ev; replace (PI + 2 * PI * (- IZR k - 1))%R with (- (PI + 2 * PI * IZR k))%R in Ev by field.
    edestruct (angle_steps_same sg s im w h f s1 s2 _ _ _ bc c t2 u v _ Rf Pw Ph S1 S2 Et2 Eu Ev Rv) as (o & E & Ro); [lia|].
    exists o; split; auto; eapply Repr_ext; [exact Ro|]; intros x y X Y; cbv beta; rewrite smoothed_weighted; apply weighted_half.
    intros a b Ha Hb; apply continued_half; auto; intros M; specialize (HM M); lia.
  - destruct (C94_value sg s t3 h w _ s1 s2 k1 k2 bc c Hg Hs Rt3) as (u & Eu & Ru); auto; try lra; try lia.
    destruct (turn_quarters u h w _ (- k - 1) Ru) as (_ & (v & Ev & Rv) & _); [lia|].
    rewrite minus_IZR, opp_IZR in Ev; replace (PI / 2 + 2 * PI * (- IZR k - 1))%R with (- (3 * (PI / 2) + 2 * PI * IZR k))%R in Ev by field.
    edestruct (angle_steps_same sg s im w h f s1 s2 _ _ _ bc c t3 u v _ Rf Pw Ph S1 S2 Et3 Eu Ev Rv) as (o & E & Ro); [lia|].
    exists o; split; auto; eapply Repr_ext; [exact Ro|]; intros x y X Y; cbv beta; rewrite smoothed_weighted; apply weighted_back.
    intros a b Ha Hb; apply continued_back; auto; intros M; specialize (HM M); lia.
Qed.
Print Assumptions C157_quarter_turns.

(** standard deviations that are not positive, pictures that are not two-dimensional *)
Theorem C157_refused sg s im s1 s2 r n1 n2 bc c : length (dims im) <> 2 \/ (s1 <= 0)%R \/ (s2 <= 0)%R ->
  imgaussfilt_angle sg s im s1 s2 r n1 n2 bc c = Throw RuntimeError.
Proof.
  intros H; unfold imgaussfilt_angle; destruct (Nat.eq_dec (length (dims im)) 2) as [E|E]; [|rewrite check2d_not2 by auto; reflexivity].
  assert (check2d im = Ok tt) as -> by (unfold check2d, get_dimensionality; rewrite ?E; reflexivity); cbn [bind].
  assert (rleb s1 0 || rleb s2 0 = true) as ->; [|reflexivity].
  apply orb_true_iff; rewrite !rleb_spec; tauto.
Qed.
Print Assumptions C157_refused.

(** a black picture stays black *)
Lemma bicubic_black im w h x y : Repr im w h (fun _ _ => 0%R) -> (Z.of_nat (w + h) < 2 ^ 64)%Z -> bicubic_r (fun v => v) (fun v => v) 0%R im x y = Ok 0%R.
Proof.
  intros Rf F; assert (Fw : (Z.of_nat w < two64)%Z) by (unfold two64; lia); assert (Fh : (Z.of_nat h < two64)%Z) by (unfold two64; lia).
  pose proof (two64_R w Fw); pose proof (two64_R h Fh).
  unfold bicubic_r; rewrite (get_width_Repr _ _ _ _ Rf), (get_height_Repr _ _ _ _ Rf); cbn [bind].
  destruct (rltb x 1 || rleb (INR w - 2) x || rltb y 1 || rleb (INR h - 2) y) eqn:E.
  - clear E; unfold bilinear_r; rewrite (get_width_Repr _ _ _ _ Rf), (get_height_Repr _ _ _ _ Rf); cbn [bind].
    destruct (rltb x 0 || rltb (INR w - 1) x || rltb y 0 || rltb (INR h - 1) y) eqn:E; [reflexivity|].
    apply orb_false_elim in E as (E & E4); apply orb_false_elim in E as (E & E3); apply orb_false_elim in E as (E1 & E2).
    apply rltb_false in E1, E2, E3, E4.
    destruct (to_size_t_ok x) as (x1 & -> & Bx); [lra|]; destruct (to_size_t_ok y) as (y1 & -> & By); [lra|]; cbn [bind].
    assert (Hx : x1 < w) by (apply INR_lt; lra); assert (Hy : y1 < h) by (apply INR_lt; lra).
    assert (Hx2 : (if w <=? x1 + 1 then x1 else x1 + 1) < w) by (destruct (Nat.leb_spec w (x1 + 1)); lia).
    assert (Hy2 : (if h <=? y1 + 1 then y1 else y1 + 1) < h) by (destruct (Nat.leb_spec h (y1 + 1)); lia).
    rewrite !(at_Repr _ _ _ _ _ _ Rf) by auto; cbn [bind]; f_equal; ring.
  - apply orb_false_elim in E as (E & E4); apply orb_false_elim in E as (E & E3); apply orb_false_elim in E as (E1 & E2).
    apply rltb_false in E1, E3; apply rleb_false in E2, E4.
    destruct (to_size_t_ok x) as (x1 & -> & Bx); [lra|]; destruct (to_size_t_ok y) as (y1 & -> & By); [lra|]; cbn [bind].
    assert (Hx : x1 + 2 < w) by (apply INR_lt; rewrite plus_INR; cbn [INR]; lra).
    assert (Hy : y1 + 2 < h) by (apply INR_lt; rewrite plus_INR; cbn [INR]; lra).
    assert (X1 : 0 < x1) by (apply INR_lt; cbn [INR]; lra); assert (Y1 : 0 < y1) by (apply INR_lt; cbn [INR]; lra).
    unfold for_range; cbn [seq for_list]; do 16 (rewrite (at_Repr _ _ _ _ _ _ Rf) by lia; cbn [bind]); f_equal; ring.
Qed.
Lemma turn_black im w h r : Repr im w h (fun _ _ => 0%R) -> (Z.of_nat (w + h) < 2 ^ 64)%Z ->
  exists nw nh o, turn im r = Ok o /\ Repr o nw nh (fun _ _ => 0%R) /\
    rounded_up nw (INR w * Rabs (cos r) + INR h * Rabs (sin r)) /\ rounded_up nh (INR h * Rabs (cos r) + INR w * Rabs (sin r)).
Proof.
  intros Rf F; destruct (rotate_shear_all 0%R (bicubic_r (fun v => v) (fun v => v) 0%R) im w h _ r (fun _ _ => 0%R) Rf F) as (nw & nh & o & E & Cw & Ch & Ro); auto.
  - intros x y; apply (bicubic_black im w h); auto.
  - exists nw, nh, o; auto.
Qed.
Theorem C157_black sg s im w h s1 s2 r n1 n2 bc :
  sched_ok sg -> sched1_ok s -> Repr im w h (fun _ _ => 0%R) -> 0 < w -> 0 < h -> 0 < n1 -> 0 < n2 -> (0 < s1)%R -> (0 < s2)%R ->
  (Z.of_nat (w + h + 3 * n1 + 3 * n2) <= 2 ^ 60)%Z -> (bc = BMirror -> n1 < Nat.min w h /\ n2 < Nat.min w h) ->
  exists o, imgaussfilt_angle sg s im s1 s2 r n1 n2 bc 0%R = Ok o /\ Repr o w h (fun _ _ => 0%R).
Proof.
  intros Hg Hs Rf Pw Ph P1 P2 S1 S2 B HM.
  destruct (turn_black im w h r Rf) as (tw & th & t & Et & Rt & Cw & Ch); [lia|].
  assert (Nat.min w h <= tw) by (apply (least_extent tw w h r); auto; lia); assert (Nat.min w h <= th) by (apply (least_extent th h w r); auto; lia).
  pose proof (most_extent tw w h r Cw); pose proof (most_extent th h w r Ch).
  destruct (C94_flat sg s t tw th s1 s2 n1 n2 bc 0%R) as (u & Eu & Ru); auto; try lra; try lia.
  destruct (turn_black u tw th (- r) Ru) as (vw & vh & v & Ev & Rv & Cvw & Cvh); [lia|].
  pose proof (most_extent vw tw th _ Cvw); pose proof (most_extent vh th tw _ Cvh).
  destruct (angle_steps sg s im w h (fun _ _ => 0%R) s1 s2 r n1 n2 bc 0%R t u v vw vh (fun _ _ => 0%R)) as (o & E & Ro); auto; [lia|].
  exists o; split; auto; eapply Repr_ext; [exact Ro|]; intros x y X Y; cbv beta zeta; destruct (_ && _); reflexivity.
Qed.
Print Assumptions C157_black.

(** but a flat picture need not stay flat: one white pixel smoothed at 45 degrees vanishes, also when the border is replicated *)
Lemma root2 : (1 < 1 * (1 / sqrt 2) + 1 * (1 / sqrt 2) <= 2)%R /\ (0 < 1 / sqrt 2)%R.
Proof.
  assert (Q : (sqrt 2 * sqrt 2 = 2)%R) by (apply sqrt_sqrt; lra).
  assert (P : (0 < sqrt 2)%R) by (apply sqrt_lt_R0; lra).
  assert (E : (1 / sqrt 2 = sqrt 2 / 2)%R).
  { apply (Rmult_eq_reg_r (sqrt 2)); [|lra]; unfold Rdiv; rewrite Rmult_1_l, Rinv_l by lra; nra. }
  rewrite E; nra.
Qed.
Theorem C157_flat_refuted : exists im o, Repr im 1 1 (fun _ _ => 1%R) /\
  imgaussfilt_angle grid seq0 im 1 1 (PI / 4) 1 1 BReplicate 1 = Ok o /\ Repr o 1 1 (fun _ _ => 0%R) /\
  exists o', imgaussfilt2 grid seq0 im 1 1 1 1 BReplicate 1 = Ok o' /\ Repr o' 1 1 (fun _ _ => 1%R).
Proof.
  set (im := img 1 1 (fun _ _ => 1%R)); pose proof (img_Repr 1 1 (fun _ _ => 1%R)) as Rf; fold im in Rf.
  destruct root2 as ((L1 & L2) & L3).
  destruct (C104_default im 1 1 _ Rf) as (val & V & X & Z0); [lia|].
  destruct (rotate_shear_all 0%R (bicubic_r (fun v => v) (fun v => v) 0%R) im 1 1 _ (PI / 4) val Rf) as (tw & th & t & Et & Cw & Ch & Rt); auto; [unfold two64; lia|].
  assert (C2 : ceiling 2 (INR 1 * Rabs (cos (PI / 4)) + INR 1 * Rabs (sin (PI / 4)))).
  { unfold ceiling; rewrite sin_PI4, cos_PI4, Rabs_pos_eq by lra; cbn [INR]; lra. }
  assert (tw = 2) as -> by (apply (ceiling_unique _ _ _ Cw C2)); assert (th = 2) as -> by (apply (ceiling_unique _ _ _ Ch C2)).
  assert (Rt0 : Repr t 2 2 (fun _ _ => 0%R)).
  { eapply Repr_ext; [exact Rt|]; intros i j Hi Hj; cbv beta; apply Z0; unfold source_x, source_y; rewrite sin_PI4, cos_PI4.
    assert (Ei : i = 0 \/ i = 1) by lia; assert (Ej : j = 0 \/ j = 1) by lia.
    destruct Ei as [-> | ->], Ej as [-> | ->]; cbn [INR]; lra. }
  destruct (C94_range grid seq0 t 2 2 (fun _ _ => 0%R) 1 1 1 1 BReplicate 1 0 0) as (u & g & Eu & Ru & Bu); auto using sched_ok_grid, sched1_seq0; try lia; try (intros; lra); try discriminate.
  assert (Ru0 : Repr u 2 2 (fun _ _ => 0%R)) by (eapply Repr_ext; [exact Ru|]; intros x y Hx Hy; specialize (Bu x y Hx Hy); lra).
  destruct (turn_black u 2 2 (- (PI / 4)) Ru0) as (vw & vh & v & Ev & Rv & Cvw & Cvh); [lia|].
  pose proof (most_extent vw 2 2 _ Cvw); pose proof (most_extent vh 2 2 _ Cvh).
  edestruct (angle_steps grid seq0 im 1 1 (fun _ _ => 1%R) 1 1 (PI / 4) 1 1 BReplicate 1%R t u v) as (o & E & Ro); eauto; try lra; [lia|].
  exists im, o; split; [exact Rf|]; split; [exact E|]; split.
  - eapply Repr_ext; [exact Ro|]; intros x y Hx Hy; cbv beta zeta; destruct (_ && _); reflexivity.
  - apply C94_flat; auto using sched_ok_grid, sched1_seq0; try lia; try discriminate.
Qed.
Print Assumptions C157_flat_refuted.

(** a Gaussian turned by half a turn is the same Gaussian, but not the same smoothing: a bright point moves to the other side *)
Theorem C157_symmetry_refuted : exists im o o' g g', Repr im 3 3 (fun x y => if (x =? 1) && (y =? 1) then 1%R else 0%R) /\
  imgaussfilt_angle grid seq0 im 1 1 0 3 3 BConstant 0 = Ok o /\ Repr o 3 3 g /\
  imgaussfilt_angle grid seq0 im 1 1 PI 3 3 BConstant 0 = Ok o' /\ Repr o' 3 3 g' /\ (g 0%nat 0%nat < g 2%nat 2%nat)%R /\ (g' 2%nat 2%nat < g' 0%nat 0%nat)%R.
Proof.
  set (f := fun x y : nat => if (x =? 1) && (y =? 1) then 1%R else 0%R).
  pose proof (img_Repr 3 3 f) as Rf.
  destruct (C95_peak grid seq0 (img 3 3 f) 3 3 1 1 1 1 3 3) as (o & g & E & Ro & P);
    [apply sched_ok_grid | apply sched1_seq0 | apply img_Repr | lia | lia | cbn; lia | cbn; lia | lra | lra | lia | lia |].
  change (1 + displacement 3 3) with 2 in P.
  assert (L : (g 0%nat 0%nat < g 2%nat 2%nat)%R) by (apply P; try lia; discriminate).
  destruct (turn_quarters (img 3 3 f) 3 3 f 0 Rf) as (_ & _ & (t & Et & Rt) & _); [lia|]; rewrite Rmult_0_r, Rplus_0_r in Et.
  assert (t = img 3 3 f) as ->.
  { apply (Repr_eq _ _ 3 3 f); auto; eapply Repr_ext; [exact Rt|]; intros x y Hx Hy; unfold f; destruct x as [|[|[|]]], y as [|[|[|]]]; try lia; reflexivity. }
  destruct (turn_quarters o 3 3 g (- 1) Ro) as (_ & _ & (v & Ev & Rv) & _); [lia|]; replace (PI + 2 * PI * -1)%R with (- PI)%R in Ev by ring.
  destruct (angle_steps_same grid seq0 (img 3 3 f) 3 3 f 1 1 PI 3 3 BConstant 0%R (img 3 3 f) o v (fun i j => g (3 - 1 - i) (3 - 1 - j)) Rf) as (o' & E' & Ro'); auto; try lia; try lra.
  exists (img 3 3 f), o, o', g; eexists; split; [exact Rf|]; split; [|split; [exact Ro|]; split; [exact E'|]; split; [exact Ro'|]; split; [exact L | exact L]].
  rewrite <- E; replace (imgaussfilt_angle grid seq0 (img 3 3 f) 1 1 0) with (imgaussfilt_angle grid seq0 (img 3 3 f) 1 1 (2 * PI * IZR 0)) by (f_equal; ring).
  rewrite (C157_whole_turns grid seq0 _ 3 3 f); auto using sched_ok_grid, sched1_seq0; try lia; try lra; discriminate.
Qed.
Print Assumptions C157_symmetry_refuted.

(** several channels: each for itself *)
Theorem C157_channels sp sg s im w h f s1 s2 r n1 n2 bc :
  sched1_ok sp -> sched_ok sg -> sched1_ok s -> Repr im w h f -> (forall x y, x < w -> y < h -> length (f x y) = 3) ->
  0 < w -> 0 < h -> 0 < n1 -> 0 < n2 -> (0 < s1)%R -> (0 < s2)%R ->
  (Z.of_nat (w + h + 3 * n1 + 3 * n2) <= 2 ^ 60)%Z -> (bc = BMirror -> n1 < Nat.min w h /\ n2 < Nat.min w h) ->
  exists o g, imgaussfilt_angle3 sp sg s im s1 s2 r n1 n2 bc = Ok o /\ Repr o w h (fun x y => [g 0 x y; g 1 x y; g 2 x y]) /\
    forall k, k < 3 -> exists p q, Repr p w h (fun x y => nth k (f x y) 0%R) /\ imgaussfilt_angle sg s p s1 s2 r n1 n2 bc 0%R = Ok q /\ Repr q w h (g k).
Proof.
  intros Hp Hg Hs Rf L3 Pw Ph P1 P2 S1 S2 B HM.
  set (p := fun k => img w h (fun x y => nth k (f x y) 0%R)).
  assert (Rp : forall k, Repr (p k) w h (fun x y => nth k (f x y) 0%R)) by (intros; apply img_Repr).
  assert (G : forall k, exists g q, imgaussfilt_angle sg s (p k) s1 s2 r n1 n2 bc 0%R = Ok q /\ Repr q w h g).
  { intros k; destruct (C157_extents sg s (p k) w h (fun x y => nth k (f x y) 0%R) s1 s2 r n1 n2 bc 0%R) as (q & g & E & Rq); eauto. }
  destruct (G 0) as (g0 & q0 & E0 & R0); destruct (G 1) as (g1 & q1 & E1 & R1); destruct (G 2) as (g2 & q2 & E2 & R2).
  set (g := fun k => match k with 0 => g0 | 1 => g1 | _ => g2 end).
  assert (K : forall k, k < 3 -> exists q, imgaussfilt_angle sg s (p k) s1 s2 r n1 n2 bc 0%R = Ok q /\ Repr q w h (g k)).
  { intros k Hk; destruct k as [|[|[|k]]]; [exists q0 | exists q1 | exists q2 | lia]; auto. }
  pose proof (proj1 (Repr_ReprN _ _ _ _) Rf) as RN.
  destruct (apply_each3_ReprN sp 0%R [0%R; 0%R; 0%R] (fun plane => imgaussfilt_angle sg s plane s1 s2 r n1 n2 bc 0%R) im [w; h] _
    (fun k idx => g k (nth 0 idx 0) (nth 1 idx 0)) Hp RN) with (ds' := [w; h]) as (o & E & Ro).
  - rewrite prodn2; nia.
  - intros i I; inversion I as [|x ? ? ? X I']; subst; inversion I' as [|y ? ? ? Y I'']; subst; inversion I''; subst; cbn [nth]; apply L3; auto.
  - rewrite prodn2; nia.
  - intros k pl Hk (gk & Rk & Ek); destruct (K k Hk) as (q & Eq & Rq); exists q; split; [|apply Repr_ReprN, Rq].
    assert (pl = p k) as ->; [|exact Eq]; apply (Repr_eq _ _ w h (fun x y => nth k (f x y) 0%R)); auto.
    apply Repr_ReprN; eapply ReprN_ext; [exact Rk|]; intros i I; symmetry; apply nth_error_nth; rewrite Ek by auto; reflexivity.
  - exists o, g; split; [exact E|]; split; [apply Repr_ReprN; exact Ro|].
    intros k Hk; destruct (K k Hk) as (q & Eq & Rq); exists (p k), q; auto.
Qed.
Print Assumptions C157_channels.

Example C157_case : exists o, imgaussfilt_angle grid seq0 (img 6 5 (fun x y => INR (x + y))) 1 2 (PI / 2) 3 3 BMirror 0 = Ok o /\
  Repr o 6 5 (fun x y => weighted 2 1 1 1 (-1) 1 (continued BMirror 6 5 (fun x y => INR (x + y)) 0) (Z.of_nat x) (Z.of_nat y)).
Proof.
  destruct (C157_quarter_turns grid seq0 _ 6 5 _ 1 2 0 1 1 BMirror 0 sched_ok_grid sched1_seq0 (img_Repr 6 5 (fun x y => INR (x + y)))) as (_ & (o & E & Ro) & _); try lia; try lra.
  exists o; split; [|exact Ro]; rewrite Rmult_0_r, Rplus_0_r in E; exact E.
Qed.
Example C157_case_channels : exists o g, imgaussfilt_angle3 seq0 grid seq0 (mkImage [2; 2] [[1; 2; 3]; [4; 5; 6]; [7; 8; 9]; [1; 1; 1]]%R) 1 1 1 1 1 BMirror = Ok o /\
  Repr o 2 2 (fun x y => [g 0 x y; g 1 x y; g 2 x y]).
Proof.
  destruct (C157_channels seq0 grid seq0 (mkImage [2; 2] [[1; 2; 3]; [4; 5; 6]; [7; 8; 9]; [1; 1; 1]]%R) 2 2
    (fun x y => nth (y * 2 + x) [[1; 2; 3]; [4; 5; 6]; [7; 8; 9]; [1; 1; 1]]%R []) 1 1 1 1 1 BMirror) as (o & g & E & Ro & _);
    auto using sched_ok_grid, sched1_seq0; try lia; try lra; eauto.
  - split; [reflexivity|]; split; [reflexivity|]; intros x y X Y; destruct x as [|[|]], y as [|[|]]; try lia; reflexivity.
  - intros x y X Y; destruct x as [|[|]], y as [|[|]]; try lia; reflexivity.
Qed.
