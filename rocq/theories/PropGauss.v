(** PropGauss.v - Gaussian smoothing: C94 to C98. *)
From Coq Require Import Reals Lra ZifyBool ZifyNat.
From Verif Require Import Base ImageModel ImageFacts IndexModel ImageProofs GeomModel GeomProofs PadProofs PixelModel PixelProofs
  BigSum RSum ConvModel ConvProofs OField SiftModel SiftProofs PropSift GaussModel GaussProofs.
Open Scope nat_scope.
Ltac Zify.zify_post_hook ::= Z.div_mod_to_equations.

(** ** specification *)
(** the Gaussian function, not normalised *)
Definition gauss (sd t : R) : R := exp (- (t * t) / (2 * (sd * sd))).
(** the sum of F over the integers from -k to k *)
Definition around (k : nat) (F : Z -> R) : R := rsum (fun i => F (Z.of_nat i - Z.of_nat k)%Z) (seq 0 (2 * k + 1)).
(** a picture continued beyond its borders: by a constant, by reflection about the edge pixels, by the nearest pixel *)
Definition continued (bc : boundary) (w h : nat) (f : nat -> nat -> R) (c : R) (x y : Z) : R :=
  let inside n z := (0 <=? z)%Z && (z <? Z.of_nat n)%Z in
  let reflect n z := (if z <? 0 then - z else if Z.of_nat n <=? z then 2 * (Z.of_nat n - 1) - z else z)%Z in
  let nearest n z := Z.max 0 (Z.min z (Z.of_nat n - 1)) in
  match bc with
  | BConstant => if inside w x && inside h y then f (Z.to_nat x) (Z.to_nat y) else c
  | BMirror => f (Z.to_nat (reflect w x)) (Z.to_nat (reflect h y))
  | BReplicate => f (Z.to_nat (nearest w x)) (Z.to_nat (nearest h y))
  end.
(** the mean of the (2 k1 + 1) x (2 k2 + 1) pixels around (x, y), with the weights of a Gaussian centred at (x - 1, y - 1) *)
Definition smoothed (s1 s2 : R) (k1 k2 : nat) (p : Z -> Z -> R) (x y : Z) : R :=
  (around k1 (fun u => around k2 (fun v => gauss s1 (IZR u + 1) * gauss s2 (IZR v + 1) * p (x + u)%Z (y + v)%Z)) /
   (around k1 (fun u => gauss s1 (IZR u + 1)) * around k2 (fun v => gauss s2 (IZR v + 1))))%R.

Lemma rsum_rev (f : nat -> R) n : rsum f (seq 0 n) = rsum (fun i => f (n - 1 - i)) (seq 0 n).
Proof.
  induction n as [|n IH]; [reflexivity|].
  rewrite rsum_snoc, <- cons_seq, rsum_cons, <- seq_shift, (bsum_map 0%R Rplus), IH, Rplus_comm; f_equal.
  - f_equal; lia.
  - apply rsum_ext; intros i Hi; apply in_seq in Hi; f_equal; lia.
Qed.

Lemma bell_gauss k s i : i < 2 * k + 1 -> bell (k + 1) s (2 * k + 1 - 1 - i) = gauss s (IZR (Z.of_nat i - Z.of_nat k) + 1).
Proof.
  intros Hi; unfold bell, gauss; f_equal.
  replace (INR (2 * k + 1 - 1 - i) - INR (k + 1))%R with (- (IZR (Z.of_nat i - Z.of_nat k) + 1))%R.
  - rewrite <- Rmult_assoc; f_equal; ring.
  - rewrite minus_IZR, <- !INR_IZR_INZ, (minus_INR (2 * k + 1 - 1)) by lia; replace (2 * k + 1 - 1) with (2 * k) by lia.
    rewrite mult_INR, plus_INR; cbn [INR]; ring.
Qed.
Lemma bell_sum_around k s : bell_sum (2 * k + 1) (k + 1) s = around k (fun u => gauss s (IZR u + 1)).
Proof.
  unfold bell_sum, around; rewrite rsum_rev; apply rsum_ext; intros i Hi; apply in_seq in Hi; apply bell_gauss; lia.
Qed.

(** ** C94 *)
(** odd filter sizes: the exact value of every pixel, for every boundary condition and any order of the parallel loops *)
Theorem C94_value sg s im w h f s1 s2 k1 k2 bc c :
  sched_ok sg -> sched1_ok s -> Repr im w h f -> s1 <> 0%R -> s2 <> 0%R -> 0 < w -> 0 < h ->
  (Z.of_nat (w + 6 * k1 + 3) <= 2 ^ 62)%Z -> (Z.of_nat (h + 6 * k2 + 3) <= 2 ^ 62)%Z ->
  (bc = BMirror -> 2 * k1 + 1 < w /\ 2 * k2 + 1 < h) ->
  exists o, imgaussfilt2 sg s im s1 s2 (2 * k1 + 1) (2 * k2 + 1) bc c = Ok o /\
    Repr o w h (fun x y => smoothed s1 s2 k1 k2 (continued bc w h f c) (Z.of_nat x) (Z.of_nat y)).
Proof.
  intros Hg Hs R N1 N2 Pw Ph Fw Fh HM.
  destruct (imgaussfilt2_Repr sg s im w h f s1 s2 (2 * k1 + 1) (2 * k2 + 1) bc c) as (o & E & Ro); auto; try lia.
  exists o; split; auto; eapply Repr_ext; [exact Ro|]; intros X Y _ _; cbv beta.
  replace (shift w (2 * k1 + 1)) with k1 by (unfold shift; lia); replace (shift h (2 * k2 + 1)) with k2 by (unfold shift; lia).
  unfold weight; replace ((2 * k1 + 1 + 1) / 2) with (k1 + 1) by lia; replace ((2 * k2 + 1 + 1) / 2) with (k2 + 1) by lia.
  unfold smoothed; rewrite <- !bell_sum_around; unfold around; unfold Rdiv at 3; rewrite Rmult_comm, <- rsum_scale.
  rewrite rsum_swap, rsum_rev; apply rsum_ext; intros i Hi; apply in_seq in Hi; rewrite <- rsum_scale.
  rewrite rsum_rev; apply rsum_ext; intros j Hj; apply in_seq in Hj.
  rewrite !bell_gauss by lia; pose proof (bell_sum_pos (2 * k1 + 1) (k1 + 1) s1 ltac:(lia)); pose proof (bell_sum_pos (2 * k2 + 1) (k2 + 1) s2 ltac:(lia)).
  replace (extend bc w h f c (Z.of_nat X + Z.of_nat k1 - Z.of_nat (2 * k1 + 1 - 1 - i)) (Z.of_nat Y + Z.of_nat k2 - Z.of_nat (2 * k2 + 1 - 1 - j)))
    with (continued bc w h f c (Z.of_nat X + (Z.of_nat i - Z.of_nat k1)) (Z.of_nat Y + (Z.of_nat j - Z.of_nat k2))); [field; lra|].
  transitivity (extend bc w h f c (Z.of_nat X + (Z.of_nat i - Z.of_nat k1)) (Z.of_nat Y + (Z.of_nat j - Z.of_nat k2))); [destruct bc; reflexivity|].
  f_equal; lia.
Qed.
Print Assumptions C94_value.

(** any filter sizes: no pixel leaves the range of the picture (and of the padding value) *)
Theorem C94_range sg s im w h f s1 s2 n1 n2 bc c lo hi :
  sched_ok sg -> sched1_ok s -> Repr im w h f -> s1 <> 0%R -> s2 <> 0%R -> 0 < w -> 0 < h -> 0 < n1 -> 0 < n2 ->
  (Z.of_nat (w + 3 * n1) <= 2 ^ 62)%Z -> (Z.of_nat (h + 3 * n2) <= 2 ^ 62)%Z ->
  (bc = BMirror -> n1 < w /\ n2 < h) ->
  (forall x y, x < w -> y < h -> (lo <= f x y <= hi)%R) -> (bc = BConstant -> (lo <= c <= hi)%R) ->
  exists o g, imgaussfilt2 sg s im s1 s2 n1 n2 bc c = Ok o /\ Repr o w h g /\
    (forall x y, x < w -> y < h -> (lo <= g x y <= hi)%R).
Proof.
  intros Hg Hs R N1 N2 Pw Ph P1 P2 Fw Fh HM HF HC.
  destruct (imgaussfilt2_Repr sg s im w h f s1 s2 n1 n2 bc c) as (o & E & Ro); auto.
  eexists; eexists; split; [exact E|]; split; [exact Ro|]; intros X Y HX HY; cbv beta.
  set (e := fun i j : nat => extend bc w h f c (Z.of_nat X + Z.of_nat (shift w n1) - Z.of_nat i) (Z.of_nat Y + Z.of_nat (shift h n2) - Z.of_nat j)).
  assert (HE : forall i j, i < n1 -> j < n2 -> (lo <= e i j <= hi)%R).
  { assert (shift w n1 <= n1 / 2) by (unfold shift; lia); assert (shift h n2 <= n2 / 2) by (unfold shift; lia).
    intros i j Hi Hj; unfold e, extend; destruct bc.
    - match goal with |- context [if ?b then _ else _] => destruct b eqn:B end; [apply HF; lia | auto].
    - destruct (HM eq_refl); apply HF; unfold reflectZ;
        repeat match goal with |- context [if ?b then _ else _] => destruct b eqn:? end; lia.
    - apply HF; unfold clampZ; lia. }
  assert (HI : forall j, j < n2 -> (lo <= rsum (fun i => weight n1 s1 i * e i j) (seq 0 n1) <= hi)%R).
  { intros j Hj.
    assert (K : forall v, rsum (fun i => weight n1 s1 i * v)%R (seq 0 n1) = v).
    { intros v; erewrite rsum_ext; [|intros i _; apply Rmult_comm]; rewrite rsum_scale, weight_sum by auto; ring. }
    split.
    - rewrite <- (K lo); apply rsum_le; intros i Hi; apply in_seq in Hi; apply Rmult_le_compat_l; [left; apply weight_pos; auto | apply HE; lia].
    - rewrite <- (K hi); apply rsum_le; intros i Hi; apply in_seq in Hi; apply Rmult_le_compat_l; [left; apply weight_pos; auto | apply HE; lia]. }
  assert (K : forall v, rsum (fun j => weight n2 s2 j * v)%R (seq 0 n2) = v).
  { intros v; erewrite rsum_ext; [|intros i _; apply Rmult_comm]; rewrite rsum_scale, weight_sum by auto; ring. }
  erewrite (rsum_ext _ (fun j => (weight n2 s2 j * rsum (fun i => weight n1 s1 i * e i j) (seq 0 n1))%R)).
  2:{ intros j _; rewrite <- rsum_scale; reflexivity. }
  split.
  - rewrite <- (K lo); apply rsum_le; intros j Hj; apply in_seq in Hj; apply Rmult_le_compat_l; [left; apply weight_pos; auto | apply HI; lia].
  - rewrite <- (K hi); apply rsum_le; intros j Hj; apply in_seq in Hj; apply Rmult_le_compat_l; [left; apply weight_pos; auto | apply HI; lia].
Qed.
Print Assumptions C94_range.

(** a flat picture stays as it is *)
Corollary C94_flat sg s im w h s1 s2 n1 n2 bc v :
  sched_ok sg -> sched1_ok s -> Repr im w h (fun _ _ => v) -> s1 <> 0%R -> s2 <> 0%R -> 0 < w -> 0 < h -> 0 < n1 -> 0 < n2 ->
  (Z.of_nat (w + 3 * n1) <= 2 ^ 62)%Z -> (Z.of_nat (h + 3 * n2) <= 2 ^ 62)%Z ->
  (bc = BMirror -> n1 < w /\ n2 < h) ->
  exists o, imgaussfilt2 sg s im s1 s2 n1 n2 bc v = Ok o /\ Repr o w h (fun _ _ => v).
Proof.
  intros Hg Hs R N1 N2 Pw Ph P1 P2 Fw Fh HM.
  destruct (C94_range sg s im w h (fun _ _ => v) s1 s2 n1 n2 bc v v v) as (o & g & E & Ro & B); auto; try (intros; lra).
  exists o; split; auto; eapply Repr_ext; [exact Ro|]; intros x y X Y; specialize (B x y X Y); lra.
Qed.
Print Assumptions C94_flat.

(** a mirrored border needs a filter smaller than the picture; pictures that are not two-dimensional are refused *)
Theorem C94_too_small sg s im w h f s1 s2 n1 n2 c :
  sched_ok sg -> Repr im w h f -> 0 < w -> 0 < h -> w <= n1 \/ h <= n2 ->
  (Z.of_nat (w + 3 * n1) <= 2 ^ 62)%Z -> (Z.of_nat (h + 3 * n2) <= 2 ^ 62)%Z ->
  imgaussfilt2 sg s im s1 s2 n1 n2 BMirror c = Throw RuntimeError.
Proof.
  intros Hg R Pw Ph L Fw Fh; unfold imgaussfilt2; rewrite (check2d_Repr _ _ _ _ R); cbn [bind padded_image].
  rewrite (mirror_padding_too_wide 0%R sg Hg im w h f n1 n2 c R); auto; unfold fits, two64; lia.
Qed.
Print Assumptions C94_too_small.

Theorem C94_not_2d sg s im s1 s2 sd n1 n2 bc c : length (dims im) <> 2 ->
  imgaussfilt2 sg s im s1 s2 n1 n2 bc c = Throw RuntimeError /\ imgaussfilt sg s im sd n1 bc c = Throw RuntimeError.
Proof. intros D; unfold imgaussfilt2, imgaussfilt; rewrite check2d_not2 by auto; auto. Qed.
Print Assumptions C94_not_2d.

(** the size used when none is given: 2 m + 1 where m is 2 sigma rounded up *)
Lemma ceilZ_spec x m : (IZR m - 1 < x <= IZR m)%R -> ceilZ x = m.
Proof.
  intros (L & U); unfold ceilZ; destruct (base_Int_part (- x)) as (A & B).
  assert (A1 : (Int_part (- x) < - m + 1)%Z) by (apply lt_IZR; rewrite plus_IZR, opp_IZR; lra).
  assert (B1 : (- m - 1 < Int_part (- x))%Z) by (apply lt_IZR; rewrite minus_IZR, opp_IZR; lra).
  lia.
Qed.
Lemma filter_size_of_spec sigma m : (INR m - 1 < 2 * sigma <= INR m)%R -> (Z.of_nat (2 * m + 1) < 2 ^ 31)%Z -> filter_size_of sigma = Ok (2 * m + 1).
Proof.
  intros H B; unfold filter_size_of; rewrite (ceilZ_spec _ (Z.of_nat m)) by (rewrite <- INR_IZR_INZ; exact H).
  match goal with |- (if ?b then _ else _) = _ => replace b with true by lia end; f_equal; lia.
Qed.

Theorem C94_default_size sg s im w h f sigma m bc c :
  Repr im w h f -> (INR m - 1 < 2 * sigma <= INR m)%R -> (Z.of_nat (2 * m + 1) < 2 ^ 31)%Z ->
  imgaussfilt sg s im sigma 0 bc c = imgaussfilt2 sg s im sigma sigma (2 * m + 1) (2 * m + 1) bc c /\
  forall n, 0 < n -> imgaussfilt sg s im sigma n bc c = imgaussfilt2 sg s im sigma sigma n n bc c.
Proof.
  intros R S B; unfold imgaussfilt; rewrite (check2d_Repr _ _ _ _ R); cbn [bind Nat.eqb].
  rewrite (filter_size_of_spec sigma m) by auto; split; [reflexivity|].
  intros n P; replace (n =? 0) with false by lia; reflexivity.
Qed.
Print Assumptions C94_default_size.

Example C94_case : exists im o, Repr im 6 5 (fun x y => INR (x + y)) /\ imgaussfilt2 grid seq0 im 1 2 3 3 BMirror 0 = Ok o /\
  at_ o [0; 0] = Ok (smoothed 1 2 1 1 (continued BMirror 6 5 (fun x y => INR (x + y)) 0) 0 0) /\
  continued BMirror 6 5 (fun x y => INR (x + y)) 0 (-1) (-1) = 2%R.
Proof.
  pose proof (img_Repr 6 5 (fun x y => INR (x + y))) as R.
  destruct (C94_value grid seq0 _ 6 5 _ 1 2 1 1 BMirror 0 sched_ok_grid sched1_seq0 R) as (o & E & Ro); try lia; try lra.
  exists (img 6 5 (fun x y => INR (x + y))), o; split; [exact R|]; split; [exact E|]; split.
  - exact (at_Repr o 6 5 _ 0 0 Ro ltac:(lia) ltac:(lia)).
  - change (INR 2 = 2%R); cbn [INR]; lra.
Qed.

(** ** C95 *)
(** how far the brightest point moves: one pixel for odd sizes; for even sizes it depends on the extent of the picture *)
Definition displacement (extent n : nat) : nat := if Nat.odd n || Nat.even extent then 1 else 0.

Lemma shift_displacement w n : 0 < w -> 2 <= n -> (n + 1) / 2 = shift w n + displacement w n.
Proof.
  intros Pw Pn; unfold displacement, shift.
  destruct (Nat.odd n) eqn:O; cbn [orb].
  - apply Nat.odd_spec in O as (k & ->); lia.
  - assert (E : Nat.even n = true) by (rewrite <- Nat.negb_odd, O; reflexivity); apply Nat.even_spec in E as (k & ->).
    destruct (Nat.even w) eqn:EW.
    + apply Nat.even_spec in EW as (j & ->); lia.
    + assert (OW : Nat.odd w = true) by (rewrite <- Nat.negb_even, EW; reflexivity); apply Nat.odd_spec in OW as (j & ->); lia.
Qed.

(** a single bright pixel: the value at every pixel *)
Lemma impulse_Repr sg s im w h a b s1 s2 n1 n2 :
  sched_ok sg -> sched1_ok s -> Repr im w h (fun x y => if (x =? a) && (y =? b) then 1%R else 0%R) -> a < w -> b < h -> 0 < n1 -> 0 < n2 ->
  (Z.of_nat (w + 3 * n1) <= 2 ^ 62)%Z -> (Z.of_nat (h + 3 * n2) <= 2 ^ 62)%Z ->
  exists o, imgaussfilt2 sg s im s1 s2 n1 n2 BConstant 0%R = Ok o /\
    Repr o w h (fun X Y => let i := X + shift w n1 - a in let j := Y + shift h n2 - b in
      if (a <=? X + shift w n1) && (i <? n1) && ((b <=? Y + shift h n2) && (j <? n2)) then (weight n2 s2 j * weight n1 s1 i)%R else 0%R).
Proof.
  intros Hg Hs R Ha Hb P1 P2 Fw Fh.
  destruct (imgaussfilt2_Repr sg s im w h _ s1 s2 n1 n2 BConstant 0%R Hg Hs R) as (o & E & Ro); auto; try lia; [discriminate|].
  exists o; split; auto; eapply Repr_ext; [exact Ro|]; intros X Y HX HY; cbv beta zeta.
  set (i0 := X + shift w n1 - a); set (j0 := Y + shift h n2 - b).
  assert (T : forall i j : nat, extend BConstant w h (fun x y => if (x =? a) && (y =? b) then 1%R else 0%R) 0 (Z.of_nat X + Z.of_nat (shift w n1) - Z.of_nat i)
      (Z.of_nat Y + Z.of_nat (shift h n2) - Z.of_nat j) =
      if ((a <=? X + shift w n1) && (i =? i0)) && ((b <=? Y + shift h n2) && (j =? j0)) then 1%R else 0%R).
  { intros i j; unfold extend.
    match goal with |- (if ?p then _ else _) = (if ?q then _ else _) => destruct p eqn:EP; destruct q eqn:EQ end; auto; try (unfold i0, j0 in *; lia).
    - replace (_ && _) with true; [reflexivity|]; unfold i0, j0 in *; lia.
    - match goal with |- (if ?q then _ else _) = _ => destruct q eqn:EQ' end; auto; unfold i0, j0 in *; lia. }
  erewrite (rsum_ext _ (fun j => rsum (fun i => (weight n2 s2 j * (weight n1 s1 i *
    (if ((a <=? X + shift w n1) && (i =? i0)) && ((b <=? Y + shift h n2) && (j =? j0)) then 1 else 0)))%R) (seq 0 n1))).
  2:{ intros j _; apply rsum_ext; intros i _; rewrite T; reflexivity. }
  destruct ((a <=? X + shift w n1) && (i0 <? n1) && ((b <=? Y + shift h n2) && (j0 <? n2))) eqn:C.
  - rewrite (rsum_single _ n2 j0) by (lia || (intros j Hj Nj; apply rsum_zero; intros i _;
      replace (_ && _) with false by lia; ring)).
    rewrite (rsum_single _ n1 i0) by (lia || (intros i Hi Ni; replace (_ && _) with false by lia; ring)).
    replace (_ && _) with true by lia; ring.
  - apply rsum_zero; intros j Hj; apply rsum_zero; intros i Hi; apply in_seq in Hi, Hj.
    replace (_ && _) with false by lia; ring.
Qed.

Lemma bell_center n s i : s <> 0%R -> i <> n -> (bell n s i < bell n s n)%R.
Proof.
  intros S N; unfold bell; apply exp_increasing.
  assert (D : (INR i - INR n <> 0)%R) by (intros Z; apply N, INR_eq; lra).
  assert (S2 : (0 < 2 * s * s)%R) by (assert (0 < s * s)%R by (apply Rsqr_pos_lt in S; exact S); lra).
  assert (D2 : (0 < (INR i - INR n) * (INR i - INR n))%R) by (apply Rsqr_pos_lt in D; exact D).
  replace (INR n - INR n)%R with 0%R by ring; rewrite Rmult_0_l; unfold Rdiv; rewrite Ropp_0, Rmult_0_l.
  rewrite <- Ropp_mult_distr_l; pose proof (Rmult_lt_0_compat _ _ D2 (Rinv_0_lt_compat _ S2)); lra.
Qed.

(** the response to one bright pixel at (a, b) is largest at (a + d, b + d'), where d and d' are the displacements: the
    picture moves to the right and downwards *)
Theorem C95_peak sg s im w h a b s1 s2 n1 n2 :
  sched_ok sg -> sched1_ok s -> Repr im w h (fun x y => if (x =? a) && (y =? b) then 1%R else 0%R) -> 2 <= n1 -> 2 <= n2 ->
  a + displacement w n1 < w -> b + displacement h n2 < h -> s1 <> 0%R -> s2 <> 0%R ->
  (Z.of_nat (w + 3 * n1) <= 2 ^ 62)%Z -> (Z.of_nat (h + 3 * n2) <= 2 ^ 62)%Z ->
  exists o g, imgaussfilt2 sg s im s1 s2 n1 n2 BConstant 0%R = Ok o /\ Repr o w h g /\
    forall x y, x < w -> y < h -> (x, y) <> (a + displacement w n1, b + displacement h n2) ->
      (g x y < g (a + displacement w n1)%nat (b + displacement h n2)%nat)%R.
Proof.
  intros Hg Hs R P1 P2 Ha Hb S1 S2 Fw Fh.
  destruct (impulse_Repr sg s im w h a b s1 s2 n1 n2) as (o & E & Ro); auto; try lia.
  eexists; eexists; split; [exact E|]; split; [exact Ro|]; intros x y X Y N; cbv beta zeta.
  pose proof (shift_displacement w n1 ltac:(lia) P1) as D1; pose proof (shift_displacement h n2 ltac:(lia) P2) as D2.
  replace (a + displacement w n1 + shift w n1 - a) with ((n1 + 1) / 2) by lia.
  replace (b + displacement h n2 + shift h n2 - b) with ((n2 + 1) / 2) by lia.
  match goal with |- (_ < (if ?c then _ else _))%R => replace c with true by lia end.
  pose proof (weight_pos n1 s1 ((n1 + 1) / 2) ltac:(lia)) as W1; pose proof (weight_pos n2 s2 ((n2 + 1) / 2) ltac:(lia)) as W2.
  match goal with |- ((if ?c then _ else _) < _)%R => destruct c eqn:C end; [|apply Rmult_lt_0_compat; auto].
  set (i := x + shift w n1 - a) in *; set (j := y + shift h n2 - b) in *.
  assert (LE : forall n s i, 0 < n -> s <> 0%R -> (weight n s i <= weight n s ((n + 1) / 2))%R).
  { intros n t l Pn St; unfold weight; apply Rmult_le_compat_r; [left; apply Rinv_0_lt_compat, bell_sum_pos; auto|].
    destruct (Nat.eq_dec l ((n + 1) / 2)) as [->|Nl]; [lra | left; apply bell_center; auto]. }
  assert (LT : forall n s i, 0 < n -> s <> 0%R -> i <> (n + 1) / 2 -> (weight n s i < weight n s ((n + 1) / 2))%R).
  { intros n t l Pn St Nl; unfold weight; apply Rmult_lt_compat_r; [apply Rinv_0_lt_compat, bell_sum_pos; auto | apply bell_center; auto]. }
  pose proof (weight_pos n1 s1 i ltac:(lia)); pose proof (weight_pos n2 s2 j ltac:(lia)).
  pose proof (LE n1 s1 i ltac:(lia) S1); pose proof (LE n2 s2 j ltac:(lia) S2).
  destruct (Nat.eq_dec i ((n1 + 1) / 2)) as [Ei|Ni].
  - assert (Nj : j <> (n2 + 1) / 2) by (intros Ej; apply N; unfold i, j in *; f_equal; lia).
    pose proof (LT n2 s2 j ltac:(lia) S2 Nj); nra.
  - pose proof (LT n1 s1 i ltac:(lia) S1 Ni); nra.
Qed.
Print Assumptions C95_peak.

(** so the smoothed picture is not centred on the original: a bright pixel in the middle of an otherwise black picture,
    smoothed with a filter of 3 x 3, comes out brighter below and to the right than in the middle, or above and to the left *)
Theorem C95_centred_refuted : exists im o g, Repr im 3 3 (fun x y => if (x =? 1) && (y =? 1) then 1%R else 0%R) /\
  imgaussfilt2 grid seq0 im 1 1 3 3 BConstant 0%R = Ok o /\ Repr o 3 3 g /\ (g 1%nat 1%nat < g 2%nat 2%nat)%R /\ (g 0%nat 0%nat < g 2%nat 2%nat)%R.
Proof.
  set (f := fun x y : nat => if (x =? 1) && (y =? 1) then 1%R else 0%R).
  destruct (C95_peak grid seq0 (img 3 3 f) 3 3 1 1 1 1 3 3) as (o & g & E & Ro & P);
    [apply sched_ok_grid | apply sched1_seq0 | apply img_Repr | lia | lia | cbn; lia | cbn; lia | lra | lra | lia | lia |].
  exists (img 3 3 f), o, g; split; [apply img_Repr|]; split; auto; split; auto.
  change (1 + displacement 3 3) with 2 in P; split; apply P; try lia; discriminate.
Qed.
Print Assumptions C95_centred_refuted.

(** the even filter sizes displace the picture or not, depending on its own extents *)
Example C95_case : displacement 640 9 = 1 /\ displacement 640 8 = 1 /\ displacement 641 8 = 0 /\ displacement 641 9 = 1.
Proof. repeat split. Qed.

(** ** C96 *)
Lemma bell_is_gauss c s x : bell c s x = gauss s (INR x - INR c).
Proof. unfold bell, gauss; f_equal; rewrite Rmult_assoc; reflexivity. Qed.

(** the separable figure: product of two Gaussian functions around (cx, cy); normalised, it sums to 1 *)
Theorem C96_figure xs ys cx cy sx sy : 0 < xs -> 0 < ys -> sx <> 0%R -> sy <> 0%R ->
  exists o, gaussian_figure2d xs ys cx cy sx sy false = Ok o /\
    Repr o xs ys (fun x y => gauss sx (INR x - INR cx) * gauss sy (INR y - INR cy))%R.
Proof.
  intros Px Py Nx Ny; destruct (figure2d_Repr xs ys cx cy sx sy false Px Py) as (o & E & Ro); exists o; split; auto.
  eapply Repr_ext; [exact Ro|]; intros x y _ _; cbv beta; rewrite !bell_is_gauss; reflexivity.
Qed.
Print Assumptions C96_figure.

Theorem C96_normalised xs ys cx cy sx sy : 0 < xs -> 0 < ys -> sx <> 0%R -> sy <> 0%R ->
  exists o g k, gaussian_figure2d xs ys cx cy sx sy true = Ok o /\ Repr o xs ys g /\ (0 < k)%R /\
    (forall x y, x < xs -> y < ys -> g x y = (k * (gauss sx (INR x - INR cx) * gauss sy (INR y - INR cy)))%R) /\
    rsum (fun y => rsum (fun x => g x y) (seq 0 xs)) (seq 0 ys) = 1%R.
Proof.
  intros Px Py Nx Ny; destruct (figure2d_Repr xs ys cx cy sx sy true Px Py) as (o & E & Ro).
  pose proof (bell_sum_pos xs cx sx Px) as B1; pose proof (bell_sum_pos ys cy sy Py) as B2.
  pose proof (Rmult_lt_0_compat _ _ B1 B2) as B.
  exists o; eexists; exists (/ (bell_sum xs cx sx * bell_sum ys cy sy))%R; split; [exact E|]; split; [exact Ro|]; split.
  - apply Rinv_0_lt_compat; auto.
  - cbv beta iota; split.
    + intros x y _ _; rewrite <- !bell_is_gauss; unfold Rdiv; ring.
    + rewrite (rsum_ext _ (fun y => (/ (bell_sum xs cx sx * bell_sum ys cy sy) * (bell_sum xs cx sx * bell cy sy y))%R)).
      * rewrite !rsum_scale; fold (bell_sum ys cy sy); field; lra.
      * intros y _; rewrite (rsum_ext _ (fun x => (/ (bell_sum xs cx sx * bell_sum ys cy sy) * bell cy sy y * bell cx sx x)%R))
          by (intros x _; unfold Rdiv; ring).
        rewrite rsum_scale; fold (bell_sum xs cx sx); ring.
Qed.
Print Assumptions C96_normalised.

(** the elliptical figure with variances v1, v2 and correlation rho is the density of the two-dimensional normal
    distribution, in any order of the rows *)
Theorem C96_elliptic sg xs ys cx cy v1 v2 rho factor : sched_ok sg -> (0 < v1)%R -> (0 < v2)%R -> (-1 < rho < 1)%R ->
  exists o, gaussian_figure2d_elliptic sg xs ys cx cy v1 v2 rho factor = Ok o /\
    Repr o xs ys (fun x y =>
      let a := ((INR x - INR cx) / sqrt v1)%R in let b := ((INR y - INR cy) / sqrt v2)%R in
      factor / (2 * PI * sqrt v1 * sqrt v2 * sqrt (1 - rho * rho)) *
      exp (- (a * a - 2 * rho * a * b + b * b) / (2 * (1 - rho * rho))))%R.
Proof.
  intros Hs V1 V2 HR; destruct (elliptic_Repr sg xs ys cx cy v1 v2 rho factor Hs) as (o & E & Ro); exists o; split; auto.
  eapply Repr_ext; [exact Ro|]; intros x y _ _; cbv beta zeta; unfold elliptic_value; f_equal; f_equal.
  pose proof (sqrt_lt_R0 v1 V1) as Q1; pose proof (sqrt_lt_R0 v2 V2) as Q2.
  pose proof (sqrt_sqrt v1 ltac:(lra)) as W1; pose proof (sqrt_sqrt v2 ltac:(lra)) as W2.
  set (q1 := sqrt v1) in *; set (q2 := sqrt v2) in *; clearbody q1 q2; rewrite <- W1, <- W2.
  assert (R0 : (1 - rho * rho <> 0)%R) by nra; field; repeat split; lra.
Qed.
Print Assumptions C96_elliptic.

(** both figures are largest at their centre and symmetric about it *)
Theorem C96_centre sg xs ys cx cy v1 v2 rho factor o g :
  sched_ok sg -> (0 < v1)%R -> (0 < v2)%R -> (-1 < rho < 1)%R -> (0 < factor)%R -> cx < xs -> cy < ys ->
  gaussian_figure2d_elliptic sg xs ys cx cy v1 v2 rho factor = Ok o -> Repr o xs ys g ->
  (forall x y, x < xs -> y < ys -> (x, y) <> (cx, cy) -> (g x y < g cx cy)%R) /\
  (forall i j, i <= cx -> j <= cy -> cx + i < xs -> cy + j < ys -> g (cx + i) (cy + j) = g (cx - i) (cy - j) /\ g (cx + i) (cy - j) = g (cx - i) (cy + j)).
Proof.
  intros Hs V1 V2 HR F CX CY E Rg.
  destruct (C96_elliptic sg xs ys cx cy v1 v2 rho factor Hs V1 V2 HR) as (o' & E' & Ro'); rewrite E in E'; injection E' as <-.
  assert (V : forall x y, x < xs -> y < ys -> g x y = (factor / (2 * PI * sqrt v1 * sqrt v2 * sqrt (1 - rho * rho)) *
      exp (- ((INR x - INR cx) / sqrt v1 * ((INR x - INR cx) / sqrt v1) - 2 * rho * ((INR x - INR cx) / sqrt v1) * ((INR y - INR cy) / sqrt v2) +
        (INR y - INR cy) / sqrt v2 * ((INR y - INR cy) / sqrt v2)) / (2 * (1 - rho * rho))))%R).
  { intros x y X Y; pose proof (at_Repr _ _ _ _ _ _ Rg X Y) as A; rewrite (at_Repr _ _ _ _ _ _ Ro' X Y) in A; injection A as <-; reflexivity. }
  pose proof (sqrt_lt_R0 v1 V1) as Q1; pose proof (sqrt_lt_R0 v2 V2) as Q2.
  assert (Q3 : (0 < 1 - rho * rho)%R) by nra; pose proof (sqrt_lt_R0 _ Q3) as Q4; pose proof PI_RGT_0 as Q5.
  assert (K : (0 < factor / (2 * PI * sqrt v1 * sqrt v2 * sqrt (1 - rho * rho)))%R).
  { apply Rdiv_lt_0_compat; auto; do 3 (apply Rmult_lt_0_compat; [|assumption]); lra. }
  split.
  - intros x y X Y N; rewrite !V by auto; apply Rmult_lt_compat_l; auto; apply exp_increasing.
    set (a := ((INR x - INR cx) / sqrt v1)%R); set (b := ((INR y - INR cy) / sqrt v2)%R).
    replace ((INR cx - INR cx) / sqrt v1)%R with 0%R by (unfold Rdiv; ring); replace ((INR cy - INR cy) / sqrt v2)%R with 0%R by (unfold Rdiv; ring).
    unfold Rdiv; apply Rmult_lt_compat_r; [apply Rinv_0_lt_compat; lra|].
    assert (P : (0 < (a - rho * b) * (a - rho * b) + (1 - rho * rho) * (b * b))%R).
    { assert (AB : a <> 0%R \/ b <> 0%R).
      { destruct (Nat.eq_dec x cx) as [->|Nx]; [right | left]; intros Z; apply N.
        - f_equal; apply INR_eq; apply Rmult_integral in Z as [Z|Z]; [lra | apply Rinv_neq_0_compat in Z; [tauto | lra]].
        - exfalso; apply Nx, INR_eq; apply Rmult_integral in Z as [Z|Z]; [lra | apply Rinv_neq_0_compat in Z; [tauto | lra]]. }
      destruct (Req_EM_T b 0) as [B0|B0].
      - destruct AB as [A0|A0]; [|tauto]; rewrite B0; pose proof (Rsqr_pos_lt a A0) as PA; unfold Rsqr in PA; nra.
      - pose proof (Rsqr_pos_lt b B0) as PB; unfold Rsqr in PB; pose proof (Rle_0_sqr (a - rho * b)) as PA; unfold Rsqr in PA; nra. }
    nra.
  - intros i j Hi Hj Xi Yj; rewrite !V by lia.
    rewrite !plus_INR, !minus_INR by lia; split; f_equal; f_equal; unfold Rdiv; ring.
Qed.
Print Assumptions C96_centre.

Example C96_case : exists o g, gaussian_figure2d_elliptic grid 5 4 2 1 2 3 (1 / 2) 1 = Ok o /\ Repr o 5 4 g /\
  (g 3%nat 2%nat < g 2%nat 1%nat)%R /\ g 3%nat 2%nat = g 1%nat 0%nat.
Proof.
  destruct (C96_elliptic grid 5 4 2 1 2 3 (1 / 2) 1 sched_ok_grid) as (o & E & Ro); try lra.
  cbv zeta in Ro; match type of Ro with Repr _ _ _ ?g => exists o, g end; split; [exact E|]; split; [exact Ro|].
  match type of Ro with Repr _ _ _ ?g => destruct (C96_centre grid 5 4 2 1 2 3 (1 / 2) 1 o g sched_ok_grid) as (A & B); try lra; try lia; auto end.
  split; [apply (A 3 2); try lia; discriminate | apply (proj1 (B 1 1 ltac:(lia) ltac:(lia) ltac:(lia) ltac:(lia)))].
Qed.

(** ** C97 *)
Lemma subtract_Repr x y w h f g : Repr x w h f -> Repr y w h g -> 0 < w -> 0 < h ->
  exists o, subtract Rminus x y = Ok o /\ Repr o w h (fun a b => f a b - g a b)%R.
Proof.
  intros Rx Ry Pw Ph; apply Repr_ReprN in Rx, Ry; unfold subtract; rewrite (check_size_same_ReprN _ _ _ _ _ Rx Ry); cbn [bind].
  destruct (pixelwise2_ReprN Rminus x y _ _ _ Rx Ry) as (o & E & Ro); [rewrite prodn2; nia|].
  exists o; split; auto; apply Repr_ReprN; exact Ro.
Qed.

(** with m the rounded-up double of the standard deviation, the filter has 2 m + 1 entries.  When both filters are
    smaller than the picture, the result is the difference of the two smoothed pictures *)
Theorem C97_value sg s im w h f s1 s2 m1 m2 :
  sched_ok sg -> sched1_ok s -> Repr im w h f -> s1 <> 0%R -> s2 <> 0%R ->
  (INR m1 - 1 < 2 * s1 <= INR m1)%R -> (INR m2 - 1 < 2 * s2 <= INR m2)%R ->
  2 * m1 + 1 < w -> 2 * m1 + 1 < h -> 2 * m2 + 1 < w -> 2 * m2 + 1 < h ->
  (Z.of_nat (2 * m1 + 1) < 2 ^ 31)%Z -> (Z.of_nat (2 * m2 + 1) < 2 ^ 31)%Z -> (Z.of_nat w <= 2 ^ 61)%Z -> (Z.of_nat h <= 2 ^ 61)%Z ->
  exists o, difference_of_gaussian sg s im s1 s2 = Ok o /\
    Repr o w h (fun x y =>
      (smoothed s1 s1 m1 m1 (continued BMirror w h f 0) (Z.of_nat x) (Z.of_nat y) -
       smoothed s2 s2 m2 m2 (continued BMirror w h f 0) (Z.of_nat x) (Z.of_nat y))%R).
Proof.
  intros Hg Hs R N1 N2 S1 S2 W1 H1 W2 H2 B1 B2 BW BH; unfold difference_of_gaussian.
  rewrite (filter_size_of_spec s1 m1), (filter_size_of_spec s2 m2) by auto; cbn [bind].
  destruct (C94_default_size sg s im w h f s1 m1 BMirror 0 R S1 B1) as (_ & ->); [|lia].
  destruct (C94_value sg s im w h f s1 s1 m1 m1 BMirror 0) as (a & -> & Ra); auto; try lia; cbn [bind].
  destruct (C94_default_size sg s im w h f s2 m2 BMirror 0 R S2 B2) as (_ & ->); [|lia].
  destruct (C94_value sg s im w h f s2 s2 m2 m2 BMirror 0) as (b & -> & Rb); auto; try lia; cbn [bind].
  apply subtract_Repr; auto; lia.
Qed.
Print Assumptions C97_value.

(** a flat picture gives zero everywhere *)
Theorem C97_flat sg s im w h v s1 s2 m1 m2 :
  sched_ok sg -> sched1_ok s -> Repr im w h (fun _ _ => v) -> s1 <> 0%R -> s2 <> 0%R ->
  (INR m1 - 1 < 2 * s1 <= INR m1)%R -> (INR m2 - 1 < 2 * s2 <= INR m2)%R ->
  2 * m1 + 1 < w -> 2 * m1 + 1 < h -> 2 * m2 + 1 < w -> 2 * m2 + 1 < h ->
  (Z.of_nat (2 * m1 + 1) < 2 ^ 31)%Z -> (Z.of_nat (2 * m2 + 1) < 2 ^ 31)%Z -> (Z.of_nat w <= 2 ^ 61)%Z -> (Z.of_nat h <= 2 ^ 61)%Z ->
  exists o, difference_of_gaussian sg s im s1 s2 = Ok o /\ Repr o w h (fun _ _ => 0%R).
Proof.
  intros Hg Hs R N1 N2 S1 S2 W1 H1 W2 H2 B1 B2 BW BH; unfold difference_of_gaussian.
  rewrite (filter_size_of_spec s1 m1), (filter_size_of_spec s2 m2) by auto; cbn [bind].
  assert (G : forall sd m, sd <> 0%R -> (INR m - 1 < 2 * sd <= INR m)%R -> 2 * m + 1 < w -> 2 * m + 1 < h -> (Z.of_nat (2 * m + 1) < 2 ^ 31)%Z ->
    exists o, imgaussfilt sg s im sd (2 * m + 1) BMirror 0 = Ok o /\ Repr o w h (fun _ _ => v)).
  { intros sd m N S W H B; destruct (C94_default_size sg s im w h (fun _ _ => v) sd m BMirror 0 R S B) as (_ & ->); [|lia].
    destruct (C94_range sg s im w h (fun _ _ => v) sd sd (2 * m + 1) (2 * m + 1) BMirror 0 v v) as (o & g & E & Ro & Bo); auto; try lia; try (intros; lra); try discriminate.
    exists o; split; auto; eapply Repr_ext; [exact Ro|]; intros x y X Y; specialize (Bo x y X Y); lra. }
  destruct (G s1 m1) as (a & -> & Ra); auto; destruct (G s2 m2) as (b & -> & Rb); auto; cbn [bind].
  destruct (subtract_Repr a b w h _ _ Ra Rb) as (o & -> & Ro); try lia; exists o; split; auto.
  eapply Repr_ext; [exact Ro|]; intros; cbv beta; lra.
Qed.
Print Assumptions C97_flat.

(** otherwise an exception is thrown *)
Theorem C97_too_small sg s im w h f s1 s2 m1 m2 :
  sched_ok sg -> sched1_ok s -> Repr im w h f -> 0 < w -> 0 < h ->
  (INR m1 - 1 < 2 * s1 <= INR m1)%R -> (INR m2 - 1 < 2 * s2 <= INR m2)%R ->
  w <= 2 * m1 + 1 \/ h <= 2 * m1 + 1 \/ w <= 2 * m2 + 1 \/ h <= 2 * m2 + 1 ->
  (Z.of_nat (2 * m1 + 1) < 2 ^ 31)%Z -> (Z.of_nat (2 * m2 + 1) < 2 ^ 31)%Z -> (Z.of_nat w <= 2 ^ 61)%Z -> (Z.of_nat h <= 2 ^ 61)%Z ->
  difference_of_gaussian sg s im s1 s2 = Throw RuntimeError.
Proof.
  intros Hg Hs R Pw Ph S1 S2 L B1 B2 BW BH; unfold difference_of_gaussian.
  rewrite (filter_size_of_spec s1 m1), (filter_size_of_spec s2 m2) by auto; cbn [bind].
  destruct (C94_default_size sg s im w h f s1 m1 BMirror 0 R S1 B1) as (_ & ->); [|lia].
  destruct (Nat.lt_ge_cases (2 * m1 + 1) w) as [W1|W1]; [|rewrite (C94_too_small sg s im w h f); auto; lia].
  destruct (Nat.lt_ge_cases (2 * m1 + 1) h) as [H1|H1]; [|rewrite (C94_too_small sg s im w h f); auto; lia].
  destruct (imgaussfilt2_Repr sg s im w h f s1 s1 (2 * m1 + 1) (2 * m1 + 1) BMirror 0) as (a & -> & Ra); auto; try lia; cbn [bind].
  destruct (C94_default_size sg s im w h f s2 m2 BMirror 0 R S2 B2) as (_ & ->); [|lia].
  rewrite (C94_too_small sg s im w h f); auto; lia.
Qed.
Print Assumptions C97_too_small.

Example C97_case : exists im o, Repr im 30 29 (fun x y => INR (x * y)) /\ difference_of_gaussian grid seq0 im 1.6 2 = Ok o /\
  difference_of_gaussian grid seq0 im 1.6 7 = Throw RuntimeError.
Proof.
  pose proof (img_Repr 30 29 (fun x y => INR (x * y))) as R.
  destruct (C97_value grid seq0 _ 30 29 _ 1.6 2 4 4 sched_ok_grid sched1_seq0 R) as (o & E & _); try lra; try lia; try (cbn [INR]; lra).
  exists (img 30 29 (fun x y => INR (x * y))), o; split; [exact R|]; split; [exact E|].
  apply (C97_too_small grid seq0 _ 30 29 _ 1.6 7 4 14 sched_ok_grid sched1_seq0 R); try lia; cbn [INR]; lra.
Qed.

(** ** C98: the octaves of the keypoint search, with the default parameters *)
(** the standard deviations 1.6, 2.26, 3.2, 4.53, 6.4 need filters of 9, 11, 15, 21 and 27 entries *)
Lemma default_sizes i : i < 5 -> let m := nth i [4; 5; 7; 10; 13] 0 in (INR m - 1 < 2 * (1.6 * sqrt 2 ^ i) <= INR m)%R.
Proof.
  pose proof (sqrt_sqrt 2 ltac:(lra)) as Q; pose proof (sqrt_pos 2) as P.
  assert (L : (1.41 < sqrt 2)%R) by nra; assert (U : (sqrt 2 < 1.42)%R) by nra.
  assert (Q2 : (sqrt 2 ^ 2 = 2)%R) by (cbn [pow]; lra); assert (Q3 : (sqrt 2 ^ 3 = 2 * sqrt 2)%R) by (cbn [pow]; nra).
  assert (Q4 : (sqrt 2 ^ 4 = 4)%R) by (cbn [pow]; nra).
  intros H; destruct i as [|[|[|[|[|]]]]]; try lia; cbn [nth INR]; rewrite ?Q2, ?Q3, ?Q4; cbn [pow]; lra.
Qed.

Lemma default_sd i : (1.6 * sqrt 2 ^ i)%R <> 0%R.
Proof. pose proof (pow_lt (sqrt 2) i (sqrt_lt_R0 2 ltac:(lra))); apply Rgt_not_eq, Rmult_lt_0_compat; lra. Qed.

Lemma mapM_throws {A B} (f : A -> res B) e l : (forall a, In a l -> (exists b, f a = Ok b) \/ f a = Throw e) ->
  (exists a, In a l /\ f a = Throw e) -> mapM f l = Throw e.
Proof.
  induction l as [|a l IH]; intros D (x & I & T); [destruct I|]; cbn.
  destruct (D a (or_introl eq_refl)) as [(b & E)|E]; rewrite E; cbn [bind]; auto.
  rewrite IH; auto; [intros y Y; apply D; right; auto|].
  destruct I as [->|I]; [congruence | exists x; auto].
Qed.

Lemma mapM_all {A B} (f : A -> res B) (P : A -> B -> Prop) l : (forall a, In a l -> exists b, f a = Ok b /\ P a b) ->
  exists r, mapM f l = Ok r /\ Forall2 P l r.
Proof.
  induction l as [|a l IH]; intros D; cbn; [exists []; auto|].
  destruct (D a (or_introl eq_refl)) as (b & -> & Pb); destruct IH as (r & -> & F); [intros; apply D; right; auto|].
  exists (b :: r); split; auto.
Qed.

(** a picture of 28 x 28 or more has the four differences of its five smoothed versions *)
Theorem C98_octave sg s im w h f : sched_ok sg -> sched1_ok s -> Repr im w h f -> 28 <= w -> 28 <= h ->
  (Z.of_nat w <= 2 ^ 61)%Z -> (Z.of_nat h <= 2 ^ 61)%Z ->
  exists octave, generate_octave (difference_of_gaussian sg s) im 5 1.6 (sqrt 2) = Ok octave /\ length octave = 4 /\
    forall i, i < 4 -> exists o, nth_error octave i = Some o /\
      let level j := let sd := (1.6 * sqrt 2 ^ j)%R in let m := nth j [4; 5; 7; 10; 13] 0 in
        smoothed sd sd m m (continued BMirror w h f 0) in
      Repr o w h (fun x y => level i (Z.of_nat x) (Z.of_nat y) - level (i + 1)%nat (Z.of_nat x) (Z.of_nat y))%R.
Proof.
  intros Hg Hs R W H BW BH; unfold generate_octave; cbn [Nat.ltb Nat.leb Nat.sub].
  destruct (mapM_all (fun index => difference_of_gaussian sg s im (1.6 * sqrt 2 ^ index) (1.6 * sqrt 2 ^ (index + 1)))
    (fun i o => let level j := let sd := (1.6 * sqrt 2 ^ j)%R in let m := nth j [4; 5; 7; 10; 13] 0 in
        smoothed sd sd m m (continued BMirror w h f 0) in
      Repr o w h (fun x y => level i (Z.of_nat x) (Z.of_nat y) - level (i + 1)%nat (Z.of_nat x) (Z.of_nat y))%R) (seq 0 4)) as (r & E & F).
  { intros i I; apply in_seq in I; cbv beta zeta.
    pose proof (default_sizes i ltac:(lia)) as D1; pose proof (default_sizes (i + 1) ltac:(lia)) as D2; cbv zeta in D1, D2.
    assert (M : nth i [4; 5; 7; 10; 13] 0 <= 13 /\ nth (i + 1) [4; 5; 7; 10; 13] 0 <= 13) by (clear - I; destruct i as [|[|[|[|]]]]; cbn; lia).
    revert M D1 D2; set (m1 := nth i [4; 5; 7; 10; 13] 0); set (m2 := nth (i + 1) [4; 5; 7; 10; 13] 0); clearbody m1 m2; intros M D1 D2.
    apply (C97_value sg s im w h f _ _ m1 m2 Hg Hs R (default_sd _) (default_sd _) D1 D2); clear D1 D2; lia. }
  exists r; split; [rewrite E; reflexivity|]; cbn [seq] in F.
  inversion F as [|? o0 ? ? P0 F0]; subst; inversion F0 as [|? o1 ? ? P1 F1]; subst; inversion F1 as [|? o2 ? ? P2 F2]; subst;
    inversion F2 as [|? o3 ? ? P3 F3]; subst; inversion F3; subst.
  split; [reflexivity|]; intros i I; destruct i as [|[|[|[|]]]]; try lia; [exists o0 | exists o1 | exists o2 | exists o3]; split; auto.
Qed.
Print Assumptions C98_octave.

(** a smaller one has none: an exception is thrown in the loop over the scales, which is one of OpenMP, so the program ends *)
Theorem C98_octave_too_small sg s im w h f : sched_ok sg -> sched1_ok s -> Repr im w h f -> 0 < w -> 0 < h -> w < 28 \/ h < 28 ->
  (Z.of_nat w <= 2 ^ 61)%Z -> (Z.of_nat h <= 2 ^ 61)%Z ->
  difference_of_gaussian sg s im (1.6 * sqrt 2 ^ 3) (1.6 * sqrt 2 ^ 4) = Throw RuntimeError /\
  generate_octave (difference_of_gaussian sg s) im 5 1.6 (sqrt 2) = UB.
Proof.
  intros Hg Hs R W H S BW BH; split.
  { apply (C97_too_small sg s im w h f _ _ 10 13); auto; try lia; [apply (default_sizes 3) | apply (default_sizes 4)]; lia. }
  unfold generate_octave; cbn [Nat.ltb Nat.leb Nat.sub]; rewrite (mapM_throws _ RuntimeError); [reflexivity| |].
  - intros i I; apply in_seq in I; set (m1 := nth i [4; 5; 7; 10; 13] 0); set (m2 := nth (i + 1) [4; 5; 7; 10; 13] 0).
    assert (M : m1 <= 13 /\ m2 <= 13) by (clear - I; subst m1 m2; destruct i as [|[|[|[|]]]]; cbn; lia).
    pose proof (default_sizes i ltac:(lia)) as D1; pose proof (default_sizes (i + 1) ltac:(lia)) as D2; cbv zeta in D1, D2; fold m1 in D1; fold m2 in D2.
    destruct (le_lt_dec w (2 * m1 + 1)); [right; apply (C97_too_small sg s im w h f _ _ m1 m2); auto; lia|].
    destruct (le_lt_dec h (2 * m1 + 1)); [right; apply (C97_too_small sg s im w h f _ _ m1 m2); auto; lia|].
    destruct (le_lt_dec w (2 * m2 + 1)); [right; apply (C97_too_small sg s im w h f _ _ m1 m2); auto; lia|].
    destruct (le_lt_dec h (2 * m2 + 1)); [right; apply (C97_too_small sg s im w h f _ _ m1 m2); auto; lia|].
    left; destruct (C97_value sg s im w h f _ _ m1 m2 Hg Hs R (default_sd _) (default_sd _) D1 D2) as (o & E & _); try lia; exists o; exact E.
  - exists 3; split; [apply in_seq; lia|].
    apply (C97_too_small sg s im w h f _ _ 10 13); auto; try lia; [apply (default_sizes 3) | apply (default_sizes 4)]; lia.
Qed.
Print Assumptions C98_octave_too_small.

Lemma quotient_le a i : a / 2 ^ i <= a.
Proof. apply Nat.div_le_upper_bound; [apply Nat.pow_nonzero; lia|]; pose proof (Nat.pow_nonzero 2 i ltac:(lia)); nia. Qed.

(** the search stops only at octaves below 20 x 20: with an octave of 20 to 27 pixels in one direction (and at least 20 in
    the other) the search ends the program *)
Theorem C98_search_ends sg s resample order owner input w h f n contrast edge i :
  sched_ok sg -> sched1_ok s -> resample_shape resample n w h -> Repr input w h f ->
  (Z.of_nat w <= 2 ^ 61)%Z -> (Z.of_nat h <= 2 ^ 61)%Z ->
  i < n -> 20 <= w / 2 ^ i -> 20 <= h / 2 ^ i -> w / 2 ^ i < 28 \/ h / 2 ^ i < 28 ->
  get_potential_keypoint (difference_of_gaussian sg s) resample order owner input n 5 1.6 (sqrt 2) contrast edge = UB.
Proof.
  intros Hg Hs RS R BW BH I Wi Hi S.
  assert (B : build_octaves (difference_of_gaussian sg s) resample n 5 1.6 (sqrt 2) input = UB).
  { revert input w h f i RS R BW BH I Wi Hi S; induction n as [|n IH]; intros input w h f i RS R BW BH I Wi Hi S; [lia|].
    assert (W20 : 20 <= w /\ 20 <= h).
    { pose proof (quotient_le w i); pose proof (quotient_le h i); lia. }
    cbn [build_octaves]; rewrite (get_width_Repr _ _ _ _ R), (get_height_Repr _ _ _ _ R); cbn [bind].
    replace ((w <? 20) || (h <? 20)) with false by lia.
    destruct (le_lt_dec 28 w) as [W|W]; [|rewrite (proj2 (C98_octave_too_small sg s input w h f Hg Hs R ltac:(lia) ltac:(lia) ltac:(lia) BW BH)); reflexivity].
    destruct (le_lt_dec 28 h) as [H|H]; [|rewrite (proj2 (C98_octave_too_small sg s input w h f Hg Hs R ltac:(lia) ltac:(lia) ltac:(lia) BW BH)); reflexivity].
    destruct (C98_octave sg s input w h f Hg Hs R W H BW BH) as (o & -> & _); cbn [bind].
    assert (R0 : exists o g, resample input (w / 2) (h / 2) = Ok o /\ Repr o (w / 2) (h / 2) g).
    { specialize (RS 0 input f); cbn [Nat.pow] in RS; rewrite !Nat.div_1_r in RS; apply RS; auto; lia. }
    destruct R0 as (b & g & -> & Rb); cbn [bind].
    destruct i as [|i]; [cbn [Nat.pow] in S; rewrite !Nat.div_1_r in S; lia|].
    rewrite (IH b (w / 2) (h / 2) g i); rewrite ?halves; auto; try lia.
    intros j im fj J; rewrite !halves; apply RS; lia. }
  unfold get_potential_keypoint; rewrite (get_dim_Repr _ _ _ _ R), B; reflexivity.
Qed.
Print Assumptions C98_search_ends.

(** the default parameters on 100 x 100 (octaves of 100, 50 and 25) *)
Example C98_case resample : resample_shape resample 4 100 100 ->
  get_potential_keypoint (difference_of_gaussian grid seq0) resample (fun l => l) (fun _ _ _ => 0) (img 100 100 (fun x y => INR (x * y))) 4 5 1.6 (sqrt 2) 8 12.1 = UB.
Proof.
  intros RS; apply (C98_search_ends grid seq0 resample _ _ _ 100 100 (fun x y => INR (x * y)) 4 8 12.1 2); auto using sched_ok_grid, sched1_seq0, img_Repr; try lia;
    vm_compute; lia.
Qed.
