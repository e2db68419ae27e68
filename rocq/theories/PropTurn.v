(** PropTurn.v - C103 to C106: turning by any angle and fisheye lenses. *)
From Coq Require Import Reals Lra Psatz ZArith Lia ZifyBool ZifyNat.
From Verif Require Import Base ImageModel ImageFacts GeomModel GeomProofs OField JacobiModel SiftModel SiftProofs PixelModel PixelProofs WindowProofs PropBmp ColourProofs TurnModel TurnProofs FisheyeModel FisheyeProofs.
Open Scope nat_scope.

(** the real number r lies in the unit square of the pixel index i *)
Definition falls_on (r : R) (i : nat) : Prop := (INR i <= r < INR i + 1)%R.

(** what is left of a picture whose pixels are sent to places: the last one sent to a place, or the background *)
Definition scattered {A} (w h : nat) (f : nat -> nat -> A) (background : A) (lands : nat -> nat -> nat -> nat -> Prop) (g : nat -> nat -> A) : Prop :=
  forall i j, i < w -> j < h ->
    (exists x y, x < w /\ y < h /\ lands x y i j /\ g i j = f x y /\
       forall x' y', x' < w -> y' < h -> lands x' y' i j -> y' < y \/ (y' = y /\ x' <= x)) \/
    ((forall x y, x < w -> y < h -> ~ lands x y i j) /\ g i j = background).

(** ** C103: turning by scattering *)
(** the factor that makes the turned picture fit into the height of a wide picture and the width of a tall one *)
Definition shrink (w h : nat) (r : R) : R :=
  if h <? w then (INR h / (INR h * cos r + INR w * sin r))%R else (INR w / (INR w * cos r + INR h * sin r))%R.
(** the pixel (x, y), turned by r about the centre and shrunk, falls on (i, j) *)
Definition turned_onto (w h : nat) (r : R) (x y i j : nat) : Prop :=
  let u := (INR x - INR w / 2)%R in let v := (INR y - INR h / 2)%R in
  falls_on (INR w / 2 + shrink w h r * (u * cos r - v * sin r)) i /\
  falls_on (INR h / 2 + shrink w h r * (u * sin r + v * cos r)) j.

Lemma turned_onto_iff w h r x y i j : (0 < cos r)%R -> (0 < sin r)%R -> x < w -> y < h ->
  (let u := (INR x - INR w / 2)%R in let v := (INR y - INR h / 2)%R in
      (INR i <= (u * cos r - v * sin r) / turn_ratio w h r + INR w / 2 < INR i + 1)%R /\
      (INR j <= (u * sin r + v * cos r) / turn_ratio w h r + INR h / 2 < INR j + 1)%R) <-> turned_onto w h r x y i j.
Proof.
  intros C Sn Hx Hy; cbv zeta; unfold turned_onto, falls_on; cbv zeta.
  assert (Wp : (0 < INR w)%R) by (apply lt_0_INR; lia); assert (Hp : (0 < INR h)%R) by (apply lt_0_INR; lia).
  assert (E : forall a, (a / turn_ratio w h r = shrink w h r * a)%R).
  { intros a; unfold turn_ratio, shrink; destruct (h <? w); rewrite Rabs_pos_eq by nra; field; nra. }
  rewrite !E; intuition lra.
Qed.

Theorem C103_turned : forall {A} (d : A) hp im w h f r, Repr im w h f -> (Z.of_nat w < 2 ^ 64)%Z -> (Z.of_nat h < 2 ^ 64)%Z ->
  (0 < r < PI / 2)%R -> r <> hp ->
  (forall x y, x < w -> y < h -> exists i j, i < w /\ j < h /\ turned_onto w h r x y i j) /\
  exists o g, rotate_detail_r d hp im r = Ok o /\ Repr o w h g /\ scattered w h f d (turned_onto w h r) g.
Proof.
  intros A d hp im w h f r Rf Fw Fh (R0 & R1) NR.
  assert (C : (0 < cos r)%R) by (apply cos_gt_0; lra); assert (Sn : (0 < sin r)%R) by (apply sin_gt_0; lra).
  destruct (rotate_scatter_ok d im w h f r Rf Fw Fh C Sn) as (L & o & g & E & Ro & G); split.
  - intros x y Hx Hy; destruct (L x y Hx Hy) as (i & j & Hi & Hj & H); exists i, j; split; auto; split; auto; apply turned_onto_iff; auto.
  - exists o, g; split; [|split; auto].
    + unfold rotate_detail_r; rewrite (check2d_Repr _ _ _ _ Rf), reqb_false, (reqb_false r hp) by lra; cbn [bind]; auto.
    + intros i j Hi Hj; destruct (G i j Hi Hj) as [(x & y & Hx & Hy & Lx & Eg & U)|(N & Eg)].
      * left; exists x, y; split; auto; split; auto; split; [apply turned_onto_iff; auto|]; split; auto.
        intros x' y' Hx' Hy' L'; apply U; auto; apply turned_onto_iff; auto.
      * right; split; auto; intros x y Hx Hy L'; apply (N x y Hx Hy); apply turned_onto_iff; auto.
Qed.
Print Assumptions C103_turned.

(** whole quarter turns are dropped from the angle: turning by 135 degrees is turning by 45 *)
Theorem C103_quarters_dropped : forall {A} (d : A) hp im w h f r (k n : nat), Repr im w h f -> (0 <= r < hp)%R ->
  rotate_r d hp (S n) im (r + INR k * hp) = Some (rotate_detail_r d hp im r).
Proof.
  intros A d hp im w h f r k n Rf (R0 & R1); destruct Rf as (D & _).
  rewrite rotate_r_detail by (try lra; rewrite D; auto); do 2 f_equal.
  induction k as [|k IH]; [cbn [INR]; rewrite Rmult_0_l, Rplus_0_r; apply fmod_small; lra|].
  rewrite S_INR; replace (r + (INR k + 1) * hp)%R with (r + INR k * hp + hp)%R by ring; rewrite fmod_plus; auto; [lra|].
  pose proof (pos_INR k); nra.
Qed.
Print Assumptions C103_quarters_dropped.

(** a turn the other way throws the corner out of the picture: undefined, down to very small angles *)
Theorem C103_backwards_undefined : forall {A} (d : A) hp im n f r k, Repr im n n f -> 0 < n -> (PI / 4 < hp)%R ->
  (- (PI / 4) <= r < 0)%R -> (cos r <= (INR n + 1) * - sin r)%R ->
  rotate_detail_r d hp im r = UB /\ rotate_r d hp (S k) im r = Some UB.
Proof.
  intros A d hp im n f r k Rf Hn Php (R0 & R1) B; pose proof PI_RGT_0 as PP.
  assert (Sn : (sin r < 0)%R) by (rewrite <- (Ropp_involutive r), sin_neg; assert (0 < sin (- r))%R by (apply sin_gt_0; lra); lra).
  assert (SC : (- sin r <= cos r)%R).
  { rewrite <- sin_neg, <- (cos_neg r); set (t := (- r)%R).
    destruct (Req_dec t (PI / 4)) as [->|N]; [rewrite sin_PI4, cos_PI4; lra|].
    rewrite <- (sin_shift t); left; apply sin_increasing_1; unfold t in *; lra. }
  assert (E : rotate_detail_r d hp im r = UB).
  { unfold rotate_detail_r; rewrite (check2d_Repr _ _ _ _ Rf), reqb_false, (reqb_false r hp) by lra; cbn [bind].
    apply (rotate_scatter_negative d im n f r); auto. }
  split; auto; pose proof Rf as (D & _); rewrite rotate_r_detail by (try lra; rewrite D; auto).
  rewrite fmod_small_neg by lra; rewrite E; auto.
Qed.
Print Assumptions C103_backwards_undefined.

(** the constant is a long double that no double equals, so a double angle never meets the quarter turn exactly *)
Theorem C103_no_double_quarter : forall {A} (d : A) im w h f (z : Z), Repr im w h f -> (Z.of_nat w < 2 ^ 64)%Z -> (Z.of_nat h < 2 ^ 64)%Z ->
  (0 < IZR z / IZR (2 ^ 52) < PI / 2)%R ->
  exists o g, rotate_detail_r d half_pi_ld im (IZR z / IZR (2 ^ 52)) = Ok o /\ Repr o w h g /\ scattered w h f d (turned_onto w h (IZR z / IZR (2 ^ 52))) g.
Proof.
  intros A d im w h f z Rf Fw Fh B; apply C103_turned; auto.
  unfold half_pi_ld; intros E.
  assert (E' : (IZR (z * 2 ^ 63) = IZR (14488038916154245685 * 2 ^ 52))%R).
  { rewrite !mult_IZR; assert (P1 : (IZR (2 ^ 52) <> 0)%R) by (apply not_0_IZR; lia); assert (P2 : (IZR (2 ^ 63) <> 0)%R) by (apply not_0_IZR; lia).
    apply (f_equal (fun t => (t * IZR (2 ^ 52) * IZR (2 ^ 63))%R)) in E.
    replace (IZR z / IZR (2 ^ 52) * IZR (2 ^ 52) * IZR (2 ^ 63))%R with (IZR z * IZR (2 ^ 63))%R in E by (field; auto).
    rewrite E; field; auto. }
  apply eq_IZR in E'; lia.
Qed.
Print Assumptions C103_no_double_quarter.

Definition picture {A} (w h : nat) (f : nat -> nat -> A) : image A := tab [w; h] (fun idx => f (nth 0 idx 0) (nth 1 idx 0)).
Lemma picture_Repr {A} w h (f : nat -> nat -> A) : Repr (picture w h f) w h f.
Proof. apply Repr_ReprN, tab_ReprN. Qed.

Example C103_case : exists o g, rotate_detail_r 0%Z (PI / 2) (picture 4 3 (fun x y => Z.of_nat (x + 10 * y))) (PI / 6) = Ok o /\ Repr o 4 3 g /\
  scattered 4 3 (fun x y => Z.of_nat (x + 10 * y)) 0%Z (turned_onto 4 3 (PI / 6)) g.
Proof.
  apply C103_turned; [apply picture_Repr | lia | lia | |]; pose proof PI_RGT_0; lra.
Qed.
Example C103_case_backwards : rotate_r 0%Z (PI / 2) 1 (picture 100 100 (fun x y => Z.of_nat (x + y))) (- (PI / 4)) = Some UB.
Proof.
  apply (C103_backwards_undefined 0%Z (PI / 2) _ 100 (fun x y => Z.of_nat (x + y)) (- (PI / 4)) 0);
    [apply picture_Repr | lia | | |]; pose proof PI_RGT_0; try lra.
  rewrite cos_neg, sin_neg, sin_PI4, cos_PI4, Ropp_involutive.
  assert (0 < 1 / sqrt 2)%R by (apply Rdiv_lt_0_compat; [lra | apply sqrt_lt_R0; lra]); pose proof (pos_INR 100); nra.
Qed.

Theorem C103_backwards_refuted : exists (im : image Z) f n r, Repr im n n f /\ 0 < n /\ (- (PI / 2) < r < 0)%R /\ rotate_r 0%Z (PI / 2) 1 im r = Some UB.
Proof.
  exists (picture 100 100 (fun x y => Z.of_nat (x + y))), (fun x y => Z.of_nat (x + y)), 100, (- (PI / 4))%R.
  split; [apply picture_Repr|]; split; [lia|]; split; [pose proof PI_RGT_0; lra | apply C103_case_backwards].
Qed.
Print Assumptions C103_backwards_refuted.

(** ** C104: turning by sampling at the turned-back positions *)
(** the least whole number that is not below r *)
Definition rounded_up (n : nat) (r : R) : Prop := (INR n - 1 < r <= INR n)%R.
(** (i, j) is the point (px, py) of a w x h picture turned by r about the centres of the two pictures *)
Definition turned_to (w h nw nh : nat) (r px py i j : R) : Prop :=
  let u := (px - (INR w - 1) / 2)%R in let v := (py - (INR h - 1) / 2)%R in
  (i - (INR nw - 1) / 2 = u * cos r - v * sin r)%R /\ (j - (INR nh - 1) / 2 = u * sin r + v * cos r)%R.

Lemma source_turned w h nw nh r i j : turned_to w h nw nh r (source_x w nw nh r i j) (source_y h nw nh r i j) (INR i) (INR j).
Proof.
  unfold turned_to, source_x, source_y; cbv zeta; pose proof (sin2_cos2 r) as E; unfold Rsqr in E.
  set (s := sin r) in *; set (c := cos r) in *; set (a := (INR i - (INR nw - 1) / 2)%R); set (b := (INR j - (INR nh - 1) / 2)%R).
  split.
  - replace ((a * c + b * s + (INR w - 1) / 2 - (INR w - 1) / 2) * c - (- a * s + b * c + (INR h - 1) / 2 - (INR h - 1) / 2) * s)%R with (a * (s * s + c * c))%R by ring; rewrite E; ring.
  - replace ((a * c + b * s + (INR w - 1) / 2 - (INR w - 1) / 2) * s + (- a * s + b * c + (INR h - 1) / 2 - (INR h - 1) / 2) * c)%R with (b * (s * s + c * c))%R by ring; rewrite E; ring.
Qed.

Theorem C104_turned : forall {A} (d : A) interp im w h f r (val : R -> R -> A), Repr im w h f -> (Z.of_nat (w + h) < 2 ^ 64)%Z ->
  (forall x y, interp im x y = Ok (val x y)) -> (forall x y, x < w -> y < h -> val (INR x) (INR y) = f x y) ->
  exists nw nh o g, rotate_shear d (PI / 2) interp im r = Ok o /\ Repr o nw nh g /\
    rounded_up nw (INR w * Rabs (cos r) + INR h * Rabs (sin r)) /\ rounded_up nh (INR h * Rabs (cos r) + INR w * Rabs (sin r)) /\
    forall i j, i < nw -> j < nh -> exists px py, turned_to w h nw nh r px py (INR i) (INR j) /\ g i j = val px py.
Proof.
  intros A d interp im w h f r val Rf F I X.
  destruct (rotate_shear_all d interp im w h f r val Rf F I X) as (nw & nh & o & E & Cw & Ch & Ro).
  exists nw, nh, o; eexists; split; [exact E|]; split; [exact Ro|]; split; auto; split; auto.
  intros i j Hi Hj; do 2 eexists; split; [apply source_turned | reflexivity].
Qed.
Print Assumptions C104_turned.

(** nothing is cut off: the place of every pixel lies inside the new picture *)
Theorem C104_nothing_lost : forall w h nw nh r x y i j,
  rounded_up nw (INR w * Rabs (cos r) + INR h * Rabs (sin r)) -> rounded_up nh (INR h * Rabs (cos r) + INR w * Rabs (sin r)) ->
  x < w -> y < h -> turned_to w h nw nh r (INR x) (INR y) i j -> (0 <= i <= INR nw - 1)%R /\ (0 <= j <= INR nh - 1)%R.
Proof.
  intros w h nw nh r x y i j Cw Ch Hx Hy (E1 & E2); cbv zeta in *.
  assert (Bx : (INR x + 1 <= INR w)%R) by (rewrite <- S_INR; apply le_INR; lia).
  assert (By : (INR y + 1 <= INR h)%R) by (rewrite <- S_INR; apply le_INR; lia).
  pose proof (pos_INR x); pose proof (pos_INR y).
  destruct (shear_covers w h nw nh r (INR x) (INR y) Cw Ch) as (B1 & B2); try lra.
Qed.
Print Assumptions C104_nothing_lost.

(** the quarter turns move pixels without changing them, whatever exact interpolator is used, also after full turns *)
Theorem C104_quarter_turns : forall {A} (d : A) interp im w h f (k : Z) (val : R -> R -> A), Repr im w h f -> (Z.of_nat (w + h) < 2 ^ 64)%Z ->
  (forall x y, interp im x y = Ok (val x y)) -> (forall x y, x < w -> y < h -> val (INR x) (INR y) = f x y) ->
  (exists o, rotate_shear d (PI / 2) interp im (2 * PI * IZR k) = Ok o /\ Repr o w h f) /\
  (exists o, rotate_shear d (PI / 2) interp im (PI / 2 + 2 * PI * IZR k) = Ok o /\ Repr o h w (fun i j => f j (h - 1 - i))) /\
  (exists o, rotate_shear d (PI / 2) interp im (PI + 2 * PI * IZR k) = Ok o /\ Repr o w h (fun i j => f (w - 1 - i) (h - 1 - j))) /\
  (exists o, rotate_shear d (PI / 2) interp im (3 * (PI / 2) + 2 * PI * IZR k) = Ok o /\ Repr o h w (fun i j => f (w - 1 - j) i)).
Proof.
  intros A d interp im w h f k val Rf F I X.
  assert (G : forall r c s nw nh (g : nat -> nat -> A), cos r = c -> sin r = s ->
     rounded_up nw (INR w * Rabs c + INR h * Rabs s) -> rounded_up nh (INR h * Rabs c + INR w * Rabs s) ->
     (forall i j, i < nw -> j < nh -> val ((INR i - (INR nw - 1) / 2) * c + (INR j - (INR nh - 1) / 2) * s + (INR w - 1) / 2)%R
         (- (INR i - (INR nw - 1) / 2) * s + (INR j - (INR nh - 1) / 2) * c + (INR h - 1) / 2)%R = g i j) ->
     exists o, rotate_shear d (PI / 2) interp im r = Ok o /\ Repr o nw nh g).
  { intros r c s nw nh g Ec Es Cw Ch Hg.
    destruct (rotate_shear_all d interp im w h f r val Rf F I X) as (nw' & nh' & o & E & Cw' & Ch' & Ro); rewrite Ec, Es in Cw', Ch'.
    assert (nw' = nw) as -> by (apply (ceiling_unique _ _ _ Cw' Cw)); assert (nh' = nh) as -> by (apply (ceiling_unique _ _ _ Ch' Ch)).
    exists o; split; auto; apply (Repr_ext _ _ _ _ _ Ro); intros i j Hi Hj; rewrite <- Hg by auto; unfold source_x, source_y; rewrite Ec, Es; auto. }
  assert (A1 : Rabs (-1) = 1%R) by (rewrite Rabs_left; lra).
  split; [|split; [|split]].
  - apply (G _ 1%R 0%R); [rewrite <- cos_0, <- (cos_turns 0 k); f_equal; ring | rewrite <- sin_0, <- (sin_turns 0 k); f_equal; ring | | |];
      rewrite ?Rabs_R0, ?Rabs_R1; unfold rounded_up; try lra.
    intros i j Hi Hj; rewrite <- X by auto; f_equal; field.
  - apply (G _ 0%R 1%R); [rewrite cos_turns; apply cos_PI2 | rewrite sin_turns; apply sin_PI2 | | |]; rewrite ?Rabs_R0, ?Rabs_R1; unfold rounded_up; try lra.
    intros i j Hi Hj; rewrite <- X by lia; rewrite !minus_INR by lia; cbn [INR]; f_equal; field.
  - apply (G _ (-1)%R 0%R); [rewrite cos_turns; apply cos_PI | rewrite sin_turns; apply sin_PI | | |]; rewrite ?Rabs_R0, ?A1; unfold rounded_up; try lra.
    intros i j Hi Hj; rewrite <- X by lia; rewrite !minus_INR by lia; cbn [INR]; f_equal; field.
  - apply (G _ 0%R (-1)%R); [rewrite cos_turns; apply cos_3PI2 | rewrite sin_turns; apply sin_3PI2 | | |]; rewrite ?Rabs_R0, ?A1; unfold rounded_up; try lra.
    intros i j Hi Hj; rewrite <- X by lia; rewrite !minus_INR by lia; cbn [INR]; f_equal; field.
Qed.
Print Assumptions C104_quarter_turns.

(** the default interpolator meets the hypotheses, for floating and for integral pixels; outside the picture it is black *)
Theorem C104_default : forall (im : image R) w h f, Repr im w h f -> (Z.of_nat (w + h) < 2 ^ 64)%Z ->
  exists val : R -> R -> R, (forall x y, bicubic_r (fun v => v) (fun v => v) 0%R im x y = Ok (val x y)) /\
    (forall x y, x < w -> y < h -> val (INR x) (INR y) = f x y) /\
    (forall x y, (x < 0 \/ INR w - 1 < x \/ y < 0 \/ INR h - 1 < y)%R -> val x y = 0%R).
Proof.
  intros im w h f Rf F; assert (Fw : (Z.of_nat w < two64)%Z) by (unfold two64; lia); assert (Fh : (Z.of_nat h < two64)%Z) by (unfold two64; lia).
  exists (fun x y => match bicubic_r (fun v => v) (fun v => v) 0%R im x y with Ok v => v | _ => 0%R end); split; [|split].
  - intros x y; destruct (bicubic_r_total (fun v => v) (fun v => v) 0%R im w h f x y Rf Fw Fh) as (v & ->); auto.
  - intros x y Hx Hy; rewrite (bicubic_r_sample _ _ _ im w h f x y); auto.
  - intros x y O; rewrite (bicubic_r_outside _ _ _ im w h f x y); auto.
Qed.
Print Assumptions C104_default.
Theorem C104_default_int : forall lo hi (im : image Z) w h f, Repr im w h f -> (Z.of_nat (w + h) < 2 ^ 64)%Z -> (forall x y, x < w -> y < h -> (lo <= f x y <= hi)%Z) ->
  exists val : R -> R -> Z, (forall x y, bicubic_r IZR (fin_int_r lo hi) 0%Z im x y = Ok (val x y)) /\
    (forall x y, x < w -> y < h -> val (INR x) (INR y) = f x y) /\
    (forall x y, (x < 0 \/ INR w - 1 < x \/ y < 0 \/ INR h - 1 < y)%R -> val x y = 0%Z).
Proof.
  intros lo hi im w h f Rf F B; assert (Fw : (Z.of_nat w < two64)%Z) by (unfold two64; lia); assert (Fh : (Z.of_nat h < two64)%Z) by (unfold two64; lia).
  exists (fun x y => match bicubic_r IZR (fin_int_r lo hi) 0%Z im x y with Ok v => v | _ => 0%Z end); split; [|split].
  - intros x y; destruct (bicubic_r_total IZR (fin_int_r lo hi) 0%Z im w h f x y Rf Fw Fh) as (v & ->); auto.
  - intros x y Hx Hy; rewrite (bicubic_r_sample _ _ _ im w h f x y); auto; apply fin_int_r_exact; auto.
  - intros x y O; rewrite (bicubic_r_outside _ _ _ im w h f x y); auto.
Qed.
Print Assumptions C104_default_int.

Example C104_case : exists o, rotate_shear 0%Z (PI / 2) (bicubic_r IZR (fin_int_r 0 255) 0%Z) (picture 4 3 (fun x y => Z.of_nat (x + 10 * y))) PI = Ok o /\
  Repr o 4 3 (fun x y => Z.of_nat (3 - x + 10 * (2 - y))).
Proof.
  destruct (C104_default_int 0 255 _ 4 3 _ (picture_Repr 4 3 (fun x y => Z.of_nat (x + 10 * y)))) as (val & V & X & _); [lia | intros; lia |].
  destruct (C104_quarter_turns 0%Z (bicubic_r IZR (fin_int_r 0 255) 0%Z) _ 4 3 _ 0%Z val (picture_Repr 4 3 (fun x y => Z.of_nat (x + 10 * y)))) as (_ & _ & (o & E & Ro) & _); auto; [lia|].
  exists o; rewrite Rmult_0_r, Rplus_0_r in E; auto.
Qed.

(** ** C105: the Butterworth lens *)
(** the factor with which a point at the distance t from the centre is pulled towards it *)
Definition pulled (D0 N t k : R) : Prop :=
  ((0 < k)%R /\ (t = 0 -> k = 1)%R /\ (0 < t -> k * k * (1 + Rpower (t / D0) (2 * N)) = 1)%R).
Definition pulled_onto (D0 N : R) (w h x y i j : nat) : Prop :=
  let u := (INR x - INR w / 2)%R in let v := (INR y - INR h / 2)%R in
  exists k, pulled D0 N (sqrt (u * u + v * v)) k /\ falls_on (INR w / 2 + k * u) i /\ falls_on (INR h / 2 + k * v) j.

Lemma pulled_weight D0 N t : (0 < D0)%R -> (0 <= t)%R -> pulled D0 N t (butterworth_weight t D0 N).
Proof.
  intros P T; split; [apply weight_range|]; split.
  - intros ->; rewrite weight_eq; replace (0 / D0)%R with 0%R by (field; lra); rewrite pow_r_0, Rplus_0_r, sqrt_1; field.
  - intros T0; pose proof (weight_sqr t D0 N) as E; cbv zeta in E; rewrite pow_r_pos in E; auto; apply Rdiv_lt_0_compat; auto.
Qed.
Lemma pulled_unique D0 N t k k' : (0 <= t)%R -> pulled D0 N t k -> pulled D0 N t k' -> k = k'.
Proof.
  intros T (P & E0 & E1) (P' & E0' & E1'); destruct (Req_dec t 0) as [->|Nt]; [rewrite E0, E0'; auto|].
  assert (T0 : (0 < t)%R) by lra; specialize (E1 T0); specialize (E1' T0).
  pose proof (exp_pos (2 * N * ln (t / D0))) as X; fold (Rpower (t / D0) (2 * N)) in X; set (q := Rpower (t / D0) (2 * N)) in *.
  assert (E : (k * k = k' * k')%R) by (apply (Rmult_eq_reg_r (1 + q)); lra); nra.
Qed.

Theorem C105_lens : forall {A} (d : A) im w h f D0 N, Repr im w h f -> (Z.of_nat w < 2 ^ 64)%Z -> (Z.of_nat h < 2 ^ 64)%Z -> (0 < D0)%R -> (0 < N)%R ->
  (forall x y, x < w -> y < h -> exists i j, i < w /\ j < h /\ pulled_onto D0 N w h x y i j) /\
  exists o g, butterworth_fisheye d im D0 N = Ok o /\ Repr o w h g /\ scattered w h f d (pulled_onto D0 N w h) g.
Proof.
  intros A d im w h f D0 N Rf Fw Fh P PN; destruct (butterworth_ok d im w h f D0 N Rf Fw Fh) as (L & o & g & E & Ro & G).
  assert (Q : forall x y i j,
      (let u := (INR x - INR w / 2)%R in let v := (INR y - INR h / 2)%R in
      let k := butterworth_weight (hypot u v) D0 N in
      (INR i <= u * k + INR w / 2 < INR i + 1)%R /\ (INR j <= v * k + INR h / 2 < INR j + 1)%R) <-> pulled_onto D0 N w h x y i j).
  { intros x y i j; cbv zeta; unfold pulled_onto, falls_on; cbv zeta; set (u := (INR x - INR w / 2)%R); set (v := (INR y - INR h / 2)%R).
    pose proof (pulled_weight D0 N (hypot u v) P (hypot_pos u v)) as K; unfold hypot in *; split.
    - intros (B1 & B2); eexists; split; [exact K|]; lra.
    - intros (k & Kk & B1 & B2); rewrite (pulled_unique D0 N _ _ _ (sqrt_pos _) K Kk); lra. }
  split.
  - intros x y Hx Hy; destruct (L x y Hx Hy) as (i & j & Hi & Hj & H); exists i, j; split; auto; split; auto; apply Q; auto.
  - exists o, g; split; auto; split; auto; intros i j Hi Hj; destruct (G i j Hi Hj) as [(x & y & Hx & Hy & Lx & Eg & U)|(Nl & Eg)].
    + left; exists x, y; split; auto; split; auto; split; [apply Q; auto|]; split; auto; intros x' y' Hx' Hy' L'; apply U; auto; apply Q; auto.
    + right; split; auto; intros x y Hx Hy L'; apply (Nl x y Hx Hy); apply Q; auto.
Qed.
Print Assumptions C105_lens.

Lemma power_le_sqr s N : (1 <= s)%R -> (0 < N <= 1)%R -> (Rpower s (2 * N) <= s * s)%R.
Proof.
  intros S1 (N0 & N1); assert (E : (s * s = Rpower s 2)%R) by (rewrite <- (Rpower_1 s) at 1 2 by lra; rewrite <- Rpower_plus; f_equal; ring).
  rewrite E; apply Rle_Rpower; lra.
Qed.
Lemma sqr_le_power s N : (1 <= s)%R -> (1 <= N)%R -> (s * s <= Rpower s (2 * N))%R.
Proof.
  intros S1 N1; assert (E : (s * s = Rpower s 2)%R) by (rewrite <- (Rpower_1 s) at 1 2 by lra; rewrite <- Rpower_plus; f_equal; ring).
  rewrite E; apply Rle_Rpower; lra.
Qed.

(** for orders up to 1 the lens does not fold: what is farther out stays farther out *)
Theorem C105_order : forall D0 N t1 t2 k1 k2, (0 < D0)%R -> (0 < N <= 1)%R -> (0 <= t1 < t2)%R -> pulled D0 N t1 k1 -> pulled D0 N t2 k2 ->
  (k1 * t1 < k2 * t2)%R.
Proof.
  intros D0 N t1 t2 k1 k2 P PN (T1 & T2) (K1 & E1 & F1) (K2 & E2 & F2).
  assert (T20 : (0 < t2)%R) by lra; specialize (F2 T20).
  destruct (Req_dec t1 0) as [Z|NZ]; [rewrite Z, Rmult_0_r; nra|].
  assert (T10 : (0 < t1)%R) by lra; specialize (F1 T10).
  set (q1 := Rpower (t1 / D0) (2 * N)) in *; set (q2 := Rpower (t2 / D0) (2 * N)) in *.
  assert (Q1 : (0 < q1)%R) by apply exp_pos; assert (Q2 : (0 < q2)%R) by apply exp_pos.
  assert (Q : (q2 * (t1 * t1) <= q1 * (t2 * t2))%R).
  { assert (E : q2 = (q1 * Rpower (t2 / t1) (2 * N))%R).
    { unfold q1, q2; rewrite Rpower_mult_distr; [f_equal; field; lra | apply Rdiv_lt_0_compat; lra | apply Rdiv_lt_0_compat; lra]. }
    assert (S1 : (1 <= t2 / t1)%R) by (apply (Rmult_le_reg_r t1); auto; unfold Rdiv; rewrite Rmult_assoc, Rinv_l; lra).
    pose proof (power_le_sqr (t2 / t1) N S1 PN) as B.
    assert (E2' : (t2 / t1 * (t2 / t1) * (t1 * t1) = t2 * t2)%R) by (field; lra).
    rewrite E, <- E2', Rmult_assoc; apply Rmult_le_compat_l; [lra|]; apply Rmult_le_compat_r; [nra | exact B]. }
  assert (S2 : ((k1 * t1) * (k1 * t1) < (k2 * t2) * (k2 * t2))%R).
  { apply (Rmult_lt_reg_r ((1 + q1) * (1 + q2))); [nra|].
    replace (k1 * t1 * (k1 * t1) * ((1 + q1) * (1 + q2)))%R with ((k1 * k1 * (1 + q1)) * ((t1 * t1) * (1 + q2)))%R by ring.
    replace (k2 * t2 * (k2 * t2) * ((1 + q1) * (1 + q2)))%R with ((k2 * k2 * (1 + q2)) * ((t2 * t2) * (1 + q1)))%R by ring.
    rewrite F1, F2; nra. }
  apply Rsqr_incrst_0; [exact S2 | |]; apply Rmult_le_pos; lra.
Qed.
Print Assumptions C105_order.

(** for higher orders it folds: beyond the ridge, what is farther out ends nearer to the centre *)
Theorem C105_order_refuted : exists D0 N t1 t2 k1 k2, (0 < D0)%R /\ (0 < N)%R /\ (0 <= t1 < t2)%R /\ pulled D0 N t1 k1 /\ pulled D0 N t2 k2 /\
  (k2 * t2 < k1 * t1)%R.
Proof.
  exists 1%R, 2%R, 1%R, 2%R, (butterworth_weight 1 1 2), (butterworth_weight 2 1 2).
  split; [lra|]; split; [lra|]; split; [lra|]; split; [apply pulled_weight; lra|]; split; [apply pulled_weight; lra|].
  assert (E : forall s, (0 < s)%R -> Rpower s (2 * 2) = (s * s * s * s)%R).
  { intros s Hs; rewrite <- (Rpower_1 s) at 2 3 4 5 by lra; rewrite <- !Rpower_plus; f_equal; ring. }
  pose proof (weight_sqr 1 1 2) as E1; pose proof (weight_sqr 2 1 2) as E2; cbv zeta in E1, E2.
  pose proof (weight_range 1 1 2); pose proof (weight_range 2 1 2).
  rewrite pow_r_pos, E in E1, E2 by lra; nra.
Qed.
Print Assumptions C105_order_refuted.

(** for orders from 1 on everything ends within the radius D0 *)
Theorem C105_disc : forall D0 N t k, (0 < D0)%R -> (1 <= N)%R -> (0 <= t)%R -> pulled D0 N t k -> (k * t < D0)%R.
Proof.
  intros D0 N t k P PN T (K & E0 & F).
  destruct (Req_dec t 0) as [->|NZ]; [lra|]; assert (T0 : (0 < t)%R) by lra; specialize (F T0).
  set (q := Rpower (t / D0) (2 * N)) in *; assert (Q : (0 < q)%R) by apply exp_pos.
  assert (S1 : (t * t < D0 * D0 * (1 + q))%R).
  { destruct (Rle_or_lt 1 (t / D0)) as [G|G].
    - pose proof (sqr_le_power (t / D0) N G PN) as B; fold q in B.
      assert (E : (t / D0 * (t / D0) * (D0 * D0) = t * t)%R) by (field; lra); nra.
    - assert (t < D0)%R by (apply (Rmult_lt_reg_r (/ D0)); [apply Rinv_0_lt_compat; auto|]; rewrite Rinv_r by lra; exact G); nra. }
  assert (S2 : ((k * t) * (k * t) < D0 * D0)%R).
  { apply (Rmult_lt_reg_r (1 + q)); [lra|]; replace (k * t * (k * t) * (1 + q))%R with ((k * k * (1 + q)) * (t * t))%R by ring; rewrite F; lra. }
  apply Rsqr_incrst_0; [exact S2 | apply Rmult_le_pos; lra | lra].
Qed.
Print Assumptions C105_disc.

Example C105_case : exists o g, butterworth_fisheye 0%Z (picture 6 5 (fun x y => Z.of_nat (x + 10 * y))) 2 1 = Ok o /\ Repr o 6 5 g /\
  scattered 6 5 (fun x y => Z.of_nat (x + 10 * y)) 0%Z (pulled_onto 2 1 6 5) g.
Proof. apply C105_lens; [apply picture_Repr | lia | lia | lra | lra]. Qed.

(** ** C106: the Gaussian lens *)
(** a point at the distance r from the centre is seen at the distance r e^(-r^2 / 2 D0^2) *)
Definition seen_at (D0 r s : R) : Prop := (s = r * exp (- (r * r) / (2 * D0 * D0)))%R.

(** the search finds the only distance below D0 that is seen at s, to 51 binary digits of D0 *)
Theorem C106_root : forall D0 s, (0 < D0)%R -> (0 < s < D0 * exp (- (1 / 2)))%R ->
  exists r, (0 < r < D0)%R /\ seen_at D0 r s /\ (forall r', (0 <= r' <= D0)%R -> seen_at D0 r' s -> r' = r) /\
    (Rabs (inverse_root s D0 - r) <= D0 / 2 ^ 51)%R.
Proof.
  intros D0 s P B; destruct (inverse_root_spec D0 s P B) as (r & Br & Er & A); exists r; split; auto; split; [unfold seen_at; rewrite <- Er; auto|]; split; auto.
  intros r' Br' E; unfold seen_at in E; fold (lens D0 r') in E.
  destruct (Rtotal_order r' r) as [L|[L|L]]; auto; exfalso.
  - pose proof (lens_increasing D0 r' r P); lra.
  - pose proof (lens_increasing D0 r r' P); lra.
Qed.
Print Assumptions C106_root.
(** beyond the largest distance at which anything below D0 is seen the answer is D0; the centre is the centre *)
Theorem C106_beyond : forall D0 s, (0 < D0)%R -> (D0 * exp (- (1 / 2)) <= s)%R -> inverse_root s D0 = D0.
Proof.
  intros D0 s P B; unfold inverse_root; pose proof (exp_pos (- (1 / 2))).
  rewrite (proj2 (rleb_false s 0)) by nra; rewrite (proj2 (rleb_spec _ _) B); auto.
Qed.
Print Assumptions C106_beyond.
Theorem C106_centre : forall D0, inverse_root 0 D0 = 0%R.
Proof. intros D0; unfold inverse_root; rewrite (proj2 (rleb_spec 0 0)) by lra; auto. Qed.
Print Assumptions C106_centre.

(** the picture: for a lens not wider than it, every pixel shows the pixel nearest to the place found by the search *)
Definition nearest_pixel (n : nat) (r : R) : Prop := (INR n - 1 / 2 <= r < INR n + 1 / 2)%R.
Definition seen_through (D0 : R) (w h : nat) {A} (f : nat -> nat -> A) (background : A) (x y : nat) (v : A) : Prop :=
  let dx := (INR x - INR w / 2)%R in let dy := (INR y - INR h / 2)%R in let s := sqrt (dx * dx + dy * dy) in
  exists px py i j, (s * (px - INR w / 2) = inverse_root s D0 * dx)%R /\ (s * (py - INR h / 2) = inverse_root s D0 * dy)%R /\
    (s = 0 -> px = INR w / 2 /\ py = INR h / 2)%R /\ nearest_pixel i px /\ nearest_pixel j py /\
    v = if (i <? w) && (j <? h) then f i j else background.

Lemma fe_value_seen {A} (d : A) D0 w h f x y : (0 < D0)%R -> (D0 <= INR w / 2)%R -> (D0 <= INR h / 2)%R -> (Z.of_nat w < two64)%Z -> (Z.of_nat h < two64)%Z ->
  seen_through D0 w h f d x y (match fe_value D0 w h f x y with Some v => v | None => d end).
Proof.
  intros P Dw Dh Fw Fh; destruct (fisheye_defined D0 w h x y P Dw Dh Fw Fh) as ((i & Fi & Ei & Ri) & (j & Fj & Ej & Rj)).
  unfold seen_through; cbv zeta; exists (fe_x D0 w h x y), (fe_y D0 w h x y), i, j.
  unfold fe_value, fe_source; rewrite Ei, Ej, !Nat2Z.id.
  assert (V : (let u := INR x - INR w / 2 in let v := INR y - INR h / 2 in
     sqrt (u * u + v * v) * (fe_x D0 w h x y - INR w / 2) = inverse_root (sqrt (u * u + v * v)) D0 * u /\
     sqrt (u * u + v * v) * (fe_y D0 w h x y - INR h / 2) = inverse_root (sqrt (u * u + v * v)) D0 * v /\
     (sqrt (u * u + v * v) = 0 -> fe_x D0 w h x y = INR w / 2 /\ fe_y D0 w h x y = INR h / 2))%R).
  { cbv zeta; unfold fe_x, fe_y, fe_scale, hypot; cbv zeta.
    set (u := (INR x - INR w / 2)%R); set (v := (INR y - INR h / 2)%R); set (s := sqrt (u * u + v * v)).
    assert (S2 : (s * s = u * u + v * v)%R) by (apply sqrt_sqrt; nra).
    destruct (Req_dec s 0) as [Z|NZ].
    - rewrite reqb_true by auto; rewrite Z in *; assert (u = 0)%R by nra; assert (v = 0)%R by nra; rewrite H, H0; repeat split; intros; ring.
    - rewrite reqb_false by auto; split; [field; auto|]; split; [field; auto|]; intros; lra. }
  destruct V as (V1 & V2 & V3); repeat (split; [solve [auto]|]); destruct ((i <? w) && (j <? h)); auto.
Qed.

Theorem C106_picture : forall {A} (d : A) sg s im w h f D0, sched_ok sg -> sched1_ok s -> Repr im w h f -> (Z.of_nat w < 2 ^ 64)%Z -> (Z.of_nat h < 2 ^ 64)%Z ->
  (0 < D0)%R -> (D0 <= INR w / 2)%R -> (D0 <= INR h / 2)%R ->
  exists o g, gaussian_fisheye d sg inverse_root im D0 = Ok o /\ gaussian_fisheye_policy d s inverse_root im D0 = Ok o /\ Repr o w h g /\
    forall x y, x < w -> y < h -> seen_through D0 w h f d x y (g x y).
Proof.
  intros A d sg s im w h f D0 Hs Hs1 Rf Fw Fh P Dw Dh.
  destruct (gaussian_fisheye_ok d sg im w h f D0 Hs Rf P Dw Dh Fw Fh) as (o & E & Ro).
  destruct (gaussian_fisheye_policy_ok d s im w h f D0 Hs1 Rf P Dw Dh Fw Fh) as (o' & E' & Ro').
  exists o; eexists; split; [exact E|]; split; [rewrite E'; f_equal; apply (Repr_eq _ _ _ _ _ Ro' Ro)|]; split; [exact Ro|].
  intros x y Hx Hy; apply fe_value_seen; auto.
Qed.
Print Assumptions C106_picture.

(** a lens somewhat wider than the picture reads to the left of it: undefined *)
Theorem C106_wide_lens_undefined : forall {A} (d : A) sg s im w h f D0, sched_ok sg -> sched1_ok s -> Repr im w h f -> 0 < w -> 0 < h -> Nat.Even h ->
  (INR w / 2 + 1 / 2 <= D0)%R -> (D0 * exp (- (1 / 2)) <= INR w / 2)%R ->
  gaussian_fisheye d sg inverse_root im D0 = UB /\ gaussian_fisheye_policy d s inverse_root im D0 = UB.
Proof. intros; apply (gaussian_fisheye_undefined d sg s im w h f D0); auto. Qed.
Print Assumptions C106_wide_lens_undefined.

Example C106_case : exists o g, gaussian_fisheye 0%Z grid inverse_root (picture 8 6 (fun x y => Z.of_nat (x + 10 * y))) 2 = Ok o /\ Repr o 8 6 g /\
  forall x y, x < 8 -> y < 6 -> seen_through 2 8 6 (fun x y => Z.of_nat (x + 10 * y)) 0%Z x y (g x y).
Proof.
  destruct (C106_picture 0%Z grid (seq 0) _ 8 6 _ 2 sched_ok_grid (fun n => Permutation.Permutation_refl _) (picture_Repr 8 6 (fun x y => Z.of_nat (x + 10 * y))))
    as (o & g & E & _ & Ro & G); try lia; try (cbn [INR]; lra); eauto.
Qed.
Example C106_case_wide : gaussian_fisheye 0%Z grid inverse_root (picture 100 100 (fun x y => Z.of_nat (x + y))) 60 = UB.
Proof.
  apply (C106_wide_lens_undefined 0%Z grid (seq 0) _ 100 100 (fun x y => Z.of_nat (x + y)) 60 sched_ok_grid (fun n => Permutation.Permutation_refl _));
    [apply picture_Repr | lia | lia | exists 50; auto | |].
  - replace (INR 100) with 100%R by (rewrite INR_IZR_INZ; auto); lra.
  - replace (INR 100) with 100%R by (rewrite INR_IZR_INZ; auto).
    assert (X : (exp (- (1 / 2)) * exp (1 / 2) = 1)%R) by (rewrite <- exp_plus, <- exp_0; f_equal; lra).
    pose proof (exp_ineq1_le (1 / 2)); pose proof (exp_pos (- (1 / 2))); nra.
Qed.
Theorem C106_wide_lens_refuted : exists (im : image Z) f n D0, Repr im n n f /\ (0 < D0)%R /\ gaussian_fisheye 0%Z grid inverse_root im D0 = UB.
Proof.
  exists (picture 100 100 (fun x y => Z.of_nat (x + y))), (fun x y => Z.of_nat (x + y)), 100, 60%R.
  split; [apply picture_Repr|]; split; [lra | apply C106_case_wide].
Qed.
Print Assumptions C106_wide_lens_refuted.
