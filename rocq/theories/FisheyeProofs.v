(** FisheyeProofs.v - lemmas about FisheyeModel. *)
From Coq Require Import Reals Lra Psatz ZArith Lia ZifyBool ZifyNat.
From Verif Require Import Base ImageModel ImageFacts GeomModel GeomProofs OField JacobiModel OrientProofs SiftModel SiftProofs ColourProofs PixelModel PixelProofs WarpProofs TurnModel TurnProofs FisheyeModel.
Open Scope nat_scope.
Ltac Zify.zify_post_hook ::= Z.div_mod_to_equations.

(** ** the Butterworth lens *)
Lemma pow_r_nonneg x y : (0 <= pow_r x y)%R.
Proof. unfold pow_r; destruct (reqb x 0); [lra|]; left; apply exp_pos. Qed.
Lemma pow_r_pos x y : (0 < x)%R -> pow_r x y = Rpower x y.
Proof. intros H; unfold pow_r; rewrite reqb_false by lra; auto. Qed.
Lemma pow_r_0 y : pow_r 0 y = 0%R.
Proof. unfold pow_r; rewrite reqb_true; auto. Qed.

Lemma weight_eq t D0 N : butterworth_weight t D0 N = (1 / sqrt (1 + pow_r (t / D0) (2 * N)))%R.
Proof.
  unfold butterworth_weight; pose proof (pow_r_nonneg (t / D0) (2 * N)).
  replace (1 / 2)%R with (/ 2)%R by field; rewrite Rpower_sqrt by lra; auto.
Qed.
Lemma weight_range t D0 N : (0 < butterworth_weight t D0 N <= 1)%R.
Proof.
  rewrite weight_eq; pose proof (pow_r_nonneg (t / D0) (2 * N)) as P.
  assert (S1 : (1 <= sqrt (1 + pow_r (t / D0) (2 * N)))%R) by (rewrite <- sqrt_1 at 1; apply sqrt_le_1; lra).
  split; [apply Rdiv_lt_0_compat; lra|].
  apply (Rmult_le_reg_r (sqrt (1 + pow_r (t / D0) (2 * N)))); [lra|]; unfold Rdiv; rewrite Rmult_assoc, Rinv_l; lra.
Qed.
Lemma weight_sqr t D0 N : let k := butterworth_weight t D0 N in (k * k * (1 + pow_r (t / D0) (2 * N)) = 1)%R.
Proof.
  cbv zeta; rewrite weight_eq; pose proof (pow_r_nonneg (t / D0) (2 * N)) as P.
  assert (S1 : (1 <= sqrt (1 + pow_r (t / D0) (2 * N)))%R) by (rewrite <- sqrt_1 at 1; apply sqrt_le_1; lra).
  rewrite <- (sqrt_sqrt (1 + pow_r (t / D0) (2 * N))) at 3 by lra; field; lra.
Qed.

Lemma polar_scaled u v k : (hypot u v * k * cos (atan2 v u) = u * k /\ hypot u v * k * sin (atan2 v u) = v * k)%R.
Proof.
  destruct (atan2_polar v u) as (Eu & Ev); cbv zeta in Eu, Ev; unfold hypot.
  set (m := sqrt (u * u + v * v)) in *; split; [rewrite Eu at 2 | rewrite Ev at 2]; ring.
Qed.

Section Butterworth.
  Context {A : Type} (d : A).

  Lemma butterworth_ok im w h f D0 N : Repr im w h f -> (Z.of_nat w < two64)%Z -> (Z.of_nat h < two64)%Z ->
    let lands x y i j :=
      let u := (INR x - INR w / 2)%R in let v := (INR y - INR h / 2)%R in
      let k := butterworth_weight (hypot u v) D0 N in
      (INR i <= u * k + INR w / 2 < INR i + 1)%R /\ (INR j <= v * k + INR h / 2 < INR j + 1)%R in
    (forall x y, x < w -> y < h -> exists i j, i < w /\ j < h /\ lands x y i j) /\
    exists o g, butterworth_fisheye d im D0 N = Ok o /\ Repr o w h g /\
      forall i j, i < w -> j < h ->
        (exists x y, x < w /\ y < h /\ lands x y i j /\ g i j = f x y /\
           forall x' y', x' < w -> y' < h -> lands x' y' i j -> y' < y \/ (y' = y /\ x' <= x)) \/
        ((forall x y, x < w -> y < h -> ~ lands x y i j) /\ g i j = d).
  Proof.
    intros Rf Fw Fh lands.
    assert (B : forall n m k, m < n -> (Z.of_nat n < two64)%Z -> (0 < k <= 1)%R -> exists i, i < n /\ (INR i <= (INR m - INR n / 2) * k + INR n / 2 < INR i + 1)%R).
    { intros n m k Hm Fn Hk; apply lt_INR in Hm as Hm'; pose proof (pos_INR m).
      assert (P : (0 <= (INR m - INR n / 2) * k + INR n / 2 < INR n)%R) by nra.
      destruct (to_size_t_ok _ (conj (proj1 P) (Rlt_trans _ _ _ (proj2 P) (two64_R n Fn)))) as (i & _ & Bi).
      exists i; split; auto; apply INR_lt; lra. }
    assert (T : forall x y, x < w -> y < h -> exists i j, i < w /\ j < h /\ lands x y i j).
    { intros x y Hx Hy; unfold lands; cbv zeta.
      set (k := butterworth_weight (hypot (INR x - INR w / 2) (INR y - INR h / 2)) D0 N).
      pose proof (weight_range (hypot (INR x - INR w / 2) (INR y - INR h / 2)) D0 N) as K; fold k in K.
      destruct (B w x k) as (i & Hi & Bi); auto; destruct (B h y k) as (j & Hj & Bj); auto; exists i, j; auto. }
    split; [exact T|].
    unfold butterworth_fisheye; rewrite (check2d_Repr _ _ _ _ Rf), (get_width_Repr _ _ _ _ Rf), (get_height_Repr _ _ _ _ Rf); cbn [bind]; rewrite for_range_nested.
    apply scatter_grid; [|apply Repr_sizes].
    intros x y Hx Hy; destruct (T x y Hx Hy) as (i & j & Hi & Hj & L); exists i, j; split; auto; split; auto; split; auto; split.
    - intros i' j' (L1 & L2); destruct L as (L3 & L4); cbv zeta in *.
      assert (I1 : (INR i' < INR (i + 1))%R) by (rewrite plus_INR; cbn [INR]; lra).
      assert (I2 : (INR i < INR (i' + 1))%R) by (rewrite plus_INR; cbn [INR]; lra).
      assert (J1 : (INR j' < INR (j + 1))%R) by (rewrite plus_INR; cbn [INR]; lra).
      assert (J2 : (INR j < INR (j' + 1))%R) by (rewrite plus_INR; cbn [INR]; lra).
      apply INR_lt in I1, I2, J1, J2; lia.
    - intros s g Rs; cbn [fst snd]; rewrite (at_Repr _ _ _ _ _ _ Rf) by auto; cbn [bind]; destruct L as (L1 & L2).
      destruct (polar_scaled (INR x - INR w / 2) (INR y - INR h / 2) (butterworth_weight (hypot (INR x - INR w / 2) (INR y - INR h / 2)) D0 N)) as (-> & ->).
      rewrite (to_size_t_floor _ i L1), (to_size_t_floor _ j L2) by lia; cbn [bind].
      apply at_set_Repr; auto.
  Qed.
End Butterworth.

(** ** the inverse of the Gaussian lens *)
Definition lens (D0 r : R) : R := (r * exp (- (r * r) / (2 * D0 * D0)))%R.

Lemma lens_increasing D0 a b : (0 < D0 -> 0 <= a < b -> b <= D0 -> lens D0 a < lens D0 b)%R.
Proof.
  intros P (A0 & AB) BD; unfold lens.
  assert (DD : (0 < 2 * D0 * D0)%R) by nra.
  set (q := ((b * b - a * a) / (2 * D0 * D0))%R).
  assert (E : (- (b * b) / (2 * D0 * D0) = - (a * a) / (2 * D0 * D0) + - q)%R) by (unfold q; field; lra).
  rewrite E, exp_plus.
  assert (Q : (q < (b - a) / b)%R).
  { unfold q; apply (Rmult_lt_reg_r (2 * D0 * D0)); auto; unfold Rdiv; rewrite Rmult_assoc, Rinv_l, Rmult_1_r by lra.
    apply (Rmult_lt_reg_r b); [lra|]; replace ((b - a) * / b * (2 * D0 * D0) * b)%R with ((b - a) * (2 * D0 * D0))%R by (field; lra).
    assert ((b + a) * b < 2 * D0 * D0)%R by nra; nra. }
  assert (X : (1 - q <= exp (- q))%R) by (pose proof (exp_ineq1_le (- q)); lra).
  assert (M : (a < b * exp (- q))%R).
  { assert (a = b * (1 - (b - a) / b))%R by (field; lra); nra. }
  pose proof (exp_pos (- (a * a) / (2 * D0 * D0))); nra.
Qed.

Lemma lens_cont D0 : continuity (lens D0).
Proof.
  assert (E : lens D0 = mult_fct (fun r => r) (comp exp (fun r => r * r * - / (2 * D0 * D0))%R)).
  { apply FunctionalExtensionality.functional_extensionality; intros r; unfold lens, mult_fct, comp; do 2 f_equal; unfold Rdiv; ring. }
  rewrite E; apply continuity_mult; [apply derivable_continuous, derivable_id|].
  apply continuity_comp; [reg|apply derivable_continuous, derivable_exp].
Qed.

Lemma bisect_inv n : forall r_out D0 low high, (0 < D0 -> 0 <= low -> low <= high -> high <= D0 -> lens D0 low < r_out -> r_out <= lens D0 high ->
  let '(l, u) := bisect n r_out D0 low high in
  0 <= l /\ u <= D0 /\ lens D0 l < r_out <= lens D0 u /\ u - l = (high - low) / 2 ^ n)%R.
Proof.
  induction n as [|n IH]; intros r D0 low high P L0 LH HD FL FH.
  - cbn [bisect]; repeat split; auto; cbn [pow]; field.
  - cbn [bisect]; fold (lens D0 (low + (high - low) / 2)).
    destruct (rltb (lens D0 (low + (high - low) / 2)) r) eqn:E.
    + apply rltb_spec in E; specialize (IH r D0 (low + (high - low) / 2)%R high P).
      destruct (bisect n r D0 (low + (high - low) / 2) high) as (l & u); destruct IH as (I1 & I2 & I3 & I4); try lra; auto.
      repeat split; try tauto; rewrite I4; cbn [pow]; field; apply pow_nonzero; lra.
    + apply rltb_false in E; specialize (IH r D0 low (low + (high - low) / 2)%R P).
      destruct (bisect n r D0 low (low + (high - low) / 2)) as (l & u); destruct IH as (I1 & I2 & I3 & I4); try lra; auto.
      repeat split; try tauto; rewrite I4; cbn [pow]; field; apply pow_nonzero; lra.
Qed.

Lemma lens_0 D0 : lens D0 0 = 0%R.
Proof. unfold lens; ring. Qed.
Lemma lens_D0 D0 : (0 < D0)%R -> lens D0 D0 = (D0 * exp (- (1 / 2)))%R.
Proof. intros P; unfold lens; do 2 f_equal; field; lra. Qed.

Lemma inverse_root_spec D0 r : (0 < D0 -> 0 < r < D0 * exp (- (1 / 2)) ->
  exists r0, 0 < r0 < D0 /\ lens D0 r0 = r /\ Rabs (inverse_root r D0 - r0) <= D0 / 2 ^ 51)%R.
Proof.
  intros P (R0 & R1).
  assert (IVT : exists r0, (0 <= r0 <= D0 /\ lens D0 r0 = r)%R).
  { destruct (IVT (fun x => lens D0 x - r)%R 0 D0) as (z & Bz & Ez); auto.
    - apply continuity_minus; [apply lens_cont | apply continuity_const; intros a b; auto].
    - rewrite lens_0; lra.
    - rewrite lens_D0; auto; lra.
    - exists z; split; auto; lra. }
  destruct IVT as (r0 & (Z0 & Z1) & E); exists r0.
  assert (N0 : (r0 <> 0)%R) by (intros ->; rewrite lens_0 in E; lra).
  assert (N1 : (r0 <> D0)%R) by (intros ->; rewrite lens_D0 in E; auto; lra).
  split; [lra|]; split; auto.
  unfold inverse_root; rewrite (proj2 (rleb_false r 0)), (proj2 (rleb_false (D0 * exp (- (1 / 2))) r)) by lra.
  pose proof (bisect_inv 50 r D0 0%R D0 P) as B.
  destruct (bisect 50 r D0 0 D0) as (l & u); destruct B as (B1 & B2 & (B3 & B4) & B5); rewrite ?lens_0, ?lens_D0; auto; try lra.
  assert (L : (l < r0)%R).
  { destruct (Rlt_or_le l r0) as [|C]; auto; exfalso; destruct (Req_dec l r0) as [->|N]; [lra|].
    assert (l <= D0)%R by (assert (0 < 2 ^ 50)%R by (apply pow_lt; lra); assert (0 <= u - l)%R by (rewrite B5; apply Rle_mult_inv_pos; lra); lra).
    pose proof (lens_increasing D0 r0 l P); lra. }
  assert (U : (r0 <= u)%R).
  { destruct (Rle_or_lt r0 u) as [|C]; auto; exfalso; assert (0 <= u - l)%R by (assert (0 < 2 ^ 50)%R by (apply pow_lt; lra); rewrite B5; apply Rle_mult_inv_pos; lra).
    pose proof (lens_increasing D0 u r0 P); lra. }
  assert (EW : (D0 / 2 ^ 51 = (u - l) / 2)%R) by (rewrite B5; change 51 with (1 + 50)%nat; rewrite pow_add; field; apply pow_nonzero; lra).
  rewrite EW; apply Rabs_le; lra.
Qed.

Lemma inverse_root_range D0 r : (0 < D0 -> 0 <= inverse_root r D0 <= D0)%R.
Proof.
  intros P; unfold inverse_root; destruct (rleb r 0) eqn:E1; [lra|]; apply rleb_false in E1.
  destruct (rleb (D0 * exp (- (1 / 2))) r) eqn:E2; [lra|]; apply rleb_false in E2.
  pose proof (bisect_inv 50 r D0 0%R D0 P) as B.
  destruct (bisect 50 r D0 0 D0) as (l & u); destruct B as (B1 & B2 & (B3 & B4) & B5); rewrite ?lens_0, ?lens_D0; auto; lra.
Qed.

(** ** the Gaussian lens *)
Definition rounds_to (n : nat) (r : R) : Prop := (INR n - 1 / 2 <= r < INR n + 1 / 2)%R.

Lemma rround_spec r n : (- (1 / 2) < r)%R -> rounds_to n r -> rround r = Z.of_nat n.
Proof.
  intros L (A & B); unfold rround; destruct (rleb 0 r) eqn:E.
  - apply Int_part_unique; rewrite <- INR_IZR_INZ; lra.
  - apply rleb_false in E; destruct n as [|n].
    + rewrite (Int_part_unique _ 0) by lra; auto.
    + pose proof (pos_INR n); rewrite S_INR in A; lra.
Qed.
Lemma rround_exists r (B : nat) : (- (1 / 2) < r <= INR B)%R -> exists n, rounds_to n r /\ n <= B.
Proof.
  intros (L & U); exists (Z.to_nat (Int_part (r + 1 / 2))); pose proof (Int_part_bounds (r + 1 / 2)) as Bd.
  assert (Z0 : (0 <= Int_part (r + 1 / 2))%Z) by (assert (IZR (-1) < IZR (Int_part (r + 1 / 2)))%R as K by lra; apply lt_IZR in K; lia).
  unfold rounds_to; rewrite INR_IZR_INZ, Z2Nat.id by auto; split; [lra|].
  assert (K : (IZR (Int_part (r + 1 / 2)) < IZR (Z.of_nat B + 1))%R) by (rewrite plus_IZR, <- INR_IZR_INZ; lra); apply lt_IZR in K; lia.
Qed.
Lemma rround_low r : (r <= - (1 / 2))%R -> (rround r <= -1)%Z.
Proof.
  intros L; unfold rround; rewrite (proj2 (rleb_false 0 r)) by lra; pose proof (Int_part_bounds (- r + 1 / 2)).
  assert (K : (IZR 0 < IZR (Int_part (- r + 1 / 2)))%R) by lra; apply lt_IZR in K; lia.
Qed.
Lemma to_size_t_IZR_UB z : (z <= -1)%Z -> to_size_t (IZR z) = UB.
Proof. intros H; apply to_size_t_UB; left; apply IZR_le in H; lra. Qed.
Lemma to_size_t_of_nat n : (Z.of_nat n < two64)%Z -> to_size_t (IZR (Z.of_nat n)) = Ok n.
Proof. intros H; apply to_size_t_floor; auto; rewrite <- INR_IZR_INZ; lra. Qed.
Lemma to_size_t_cases r : to_size_t r = UB \/ exists n, to_size_t r = Ok n.
Proof. unfold to_size_t; destruct (_ || _); eauto. Qed.

Section Gaussian.
  Context {A : Type} (d : A).

  (** the position in the input that the pixel (x, y) is taken from *)
  Definition fe_scale (D0 : R) (w h x y : nat) : R :=
    let r := hypot (INR x - INR w / 2) (INR y - INR h / 2) in if reqb r 0 then 1%R else (inverse_root r D0 / r)%R.
  Definition fe_x (D0 : R) (w h x y : nat) : R := ((INR x - INR w / 2) * fe_scale D0 w h x y + INR w / 2)%R.
  Definition fe_y (D0 : R) (w h x y : nat) : R := ((INR y - INR h / 2) * fe_scale D0 w h x y + INR h / 2)%R.

  Lemma fisheye_pixel_dims im w h f D0 x y (s : image A) : Repr im w h f -> dims s = [w; h] -> length (pix s) = w * h ->
    fisheye_pixel inverse_root im D0 x y s =
    let* in_x := to_size_t (IZR (rround (fe_x D0 w h x y))) in
    let* in_y := to_size_t (IZR (rround (fe_y D0 w h x y))) in
    if (in_x <? w) && (in_y <? h) then let* v := atu im [in_x; in_y] in atu_set s [x; y] v else Ok s.
  Proof.
    intros Rf D L; unfold fisheye_pixel.
    assert (Ew : get_width s = Ok w) by (unfold get_width; rewrite D; auto).
    assert (Eh : get_height s = Ok h) by (unfold get_height, get_dimensionality; rewrite D; auto).
    rewrite Ew, Eh, (get_width_Repr _ _ _ _ Rf), (get_height_Repr _ _ _ _ Rf); cbn [bind]; reflexivity.
  Qed.

  Definition fe_source (D0 : R) (w h x y : nat) : nat * nat := (Z.to_nat (rround (fe_x D0 w h x y)), Z.to_nat (rround (fe_y D0 w h x y))).
  Definition fe_value (D0 : R) (w h : nat) (f : nat -> nat -> A) (x y : nat) : option A :=
    let '(i, j) := fe_source D0 w h x y in if (i <? w) && (j <? h) then Some (f i j) else None.

  Lemma fisheye_pixel_ok im w h f D0 x y (s : image A) : Repr im w h f -> dims s = [w; h] -> length (pix s) = w * h -> x < w -> y < h ->
    (exists i, (Z.of_nat i < two64)%Z /\ rround (fe_x D0 w h x y) = Z.of_nat i) -> (exists j, (Z.of_nat j < two64)%Z /\ rround (fe_y D0 w h x y) = Z.of_nat j) ->
    fisheye_pixel inverse_root im D0 x y s = Ok (match fe_value D0 w h f x y with Some v => im_upd s (y * w + x) v | None => s end).
  Proof.
    intros Rf D L Hx Hy (i & Fi & Ei) (j & Fj & Ej); rewrite (fisheye_pixel_dims im w h f) by auto; unfold fe_value, fe_source; rewrite Ei, Ej, !Nat2Z.id.
    rewrite !to_size_t_of_nat by auto; cbn [bind].
    destruct ((i <? w) && (j <? h)) eqn:E; auto; apply andb_prop in E as (E1 & E2); apply Nat.ltb_lt in E1, E2.
    rewrite (atu_Repr _ _ _ _ _ _ Rf) by auto; cbn [bind]; rewrite (atu_set2_ok s w h) by auto; auto.
  Qed.

  Lemma fe_in D0 w h x y : (0 < D0)%R -> (D0 <= INR w / 2)%R -> (D0 <= INR h / 2)%R -> (0 <= fe_x D0 w h x y <= INR w /\ 0 <= fe_y D0 w h x y <= INR h)%R.
  Proof.
    intros P Dw Dh; unfold fe_x, fe_y, fe_scale; cbv zeta.
    set (u := (INR x - INR w / 2)%R); set (v := (INR y - INR h / 2)%R); set (r := hypot u v).
    assert (R2 : (r * r = u * u + v * v)%R) by (apply sqrt_sqrt; nra).
    assert (Rp : (0 <= r)%R) by apply hypot_pos.
    destruct (Req_dec r 0) as [E|N].
    - rewrite reqb_true by auto; rewrite E in R2; assert (u = 0)%R by nra; assert (v = 0)%R by nra.
      rewrite H, H0; pose proof (pos_INR w); pose proof (pos_INR h); lra.
    - rewrite reqb_false by auto; pose proof (inverse_root_range D0 r P) as (I0 & I1); set (q := inverse_root r D0) in *.
      assert (K : forall a, (a * a <= r * r -> - D0 <= a * (q / r) <= D0)%R).
      { intros a Ha; assert (Ab : (- r <= a <= r)%R) by nra.
        assert (E : (a * (q / r) = q * (a / r))%R) by (unfold Rdiv; ring); rewrite E.
        assert (B1 : (-1 <= a / r <= 1)%R) by (split; apply (Rmult_le_reg_r r); try lra; unfold Rdiv; rewrite Rmult_assoc, Rinv_l; lra).
        nra. }
      assert (Ku := K u); assert (Kv := K v); nra.
  Qed.

  Lemma fisheye_defined D0 w h x y : (0 < D0)%R -> (D0 <= INR w / 2)%R -> (D0 <= INR h / 2)%R -> (Z.of_nat w < two64)%Z -> (Z.of_nat h < two64)%Z ->
    (exists i, (Z.of_nat i < two64)%Z /\ rround (fe_x D0 w h x y) = Z.of_nat i /\ rounds_to i (fe_x D0 w h x y)) /\
    (exists j, (Z.of_nat j < two64)%Z /\ rround (fe_y D0 w h x y) = Z.of_nat j /\ rounds_to j (fe_y D0 w h x y)).
  Proof.
    intros P Dw Dh Fw Fh; destruct (fe_in D0 w h x y P Dw Dh) as (X & Y); split.
    - destruct (rround_exists (fe_x D0 w h x y) w) as (i & Ri & Li); [lra|]; exists i; split; [lia|]; split; auto; apply rround_spec; auto; lra.
    - destruct (rround_exists (fe_y D0 w h x y) h) as (j & Rj & Lj); [lra|]; exists j; split; [lia|]; split; auto; apply rround_spec; auto; lra.
  Qed.

  Lemma gaussian_fisheye_ok sg im w h f D0 : sched_ok sg -> Repr im w h f -> (0 < D0)%R -> (D0 <= INR w / 2)%R -> (D0 <= INR h / 2)%R ->
    (Z.of_nat w < two64)%Z -> (Z.of_nat h < two64)%Z ->
    exists o, gaussian_fisheye d sg inverse_root im D0 = Ok o /\ Repr o w h (fun x y => match fe_value D0 w h f x y with Some v => v | None => d end).
  Proof.
    intros Hs Rf P Dw Dh Fw Fh; unfold gaussian_fisheye; rewrite (check2d_Repr _ _ _ _ Rf), (get_width_Repr _ _ _ _ Rf), (get_height_Repr _ _ _ _ Rf); cbn [bind].
    destruct (overlay_grid sg (fun x y s => fisheye_pixel inverse_root im D0 x y s) w h (fe_value D0 w h f) (image_sizes d [w; h]) (fun _ _ => d) Hs (Repr_sizes d w h)) as (o & E & Ro).
    - intros x y s Hx Hy D L; destruct (fisheye_defined D0 w h x y P Dw Dh Fw Fh) as ((i & Fi & Ei & _) & (j & Fj & Ej & _)).
      apply fisheye_pixel_ok; eauto.
    - exists o; split; auto; rewrite <- E; apply for_list_ext; intros [y x] s _; auto.
  Qed.

  Lemma gaussian_fisheye_policy_ok s im w h f D0 : sched1_ok s -> Repr im w h f -> (0 < D0)%R -> (D0 <= INR w / 2)%R -> (D0 <= INR h / 2)%R ->
    (Z.of_nat w < two64)%Z -> (Z.of_nat h < two64)%Z ->
    exists o, gaussian_fisheye_policy d s inverse_root im D0 = Ok o /\ Repr o w h (fun x y => match fe_value D0 w h f x y with Some v => v | None => d end).
  Proof.
    intros Hs Rf P Dw Dh Fw Fh; unfold gaussian_fisheye_policy; rewrite (check2d_Repr _ _ _ _ Rf), (get_width_Repr _ _ _ _ Rf), (get_height_Repr _ _ _ _ Rf); cbn [bind].
    apply (overlay_seq s (fun x y s => fisheye_pixel inverse_root im D0 x y s) w h (fe_value D0 w h f) (image_sizes d [w; h]) (fun _ _ => d) Hs (Repr_sizes d w h)).
    intros x y st Hx Hy D L; destruct (fisheye_defined D0 w h x y P Dw Dh Fw Fh) as ((i & Fi & Ei & _) & (j & Fj & Ej & _)).
    apply fisheye_pixel_ok; eauto.
  Qed.

  (** the picture is lost as soon as one pixel reads from the left of it *)
  Lemma for_list_UB {I S} (P : S -> Prop) (l : list I) (body : I -> S -> res S) (bad : I) :
    (forall i s, In i l -> P s -> body i s = UB \/ exists s', body i s = Ok s' /\ P s') ->
    In bad l -> (forall s, P s -> body bad s = UB) -> forall s, P s -> for_list l body s = UB.
  Proof.
    induction l as [|i l IH]; intros HS HI HB s Ps; [destruct HI|]; cbn [for_list].
    destruct (HS i s (or_introl eq_refl) Ps) as [->|(s' & Es & Ps')]; auto.
    destruct HI as [->|HI]; [rewrite HB; auto|]; rewrite Es; cbn [bind]; apply IH; auto.
    intros j t Hj; apply HS; right; auto.
  Qed.

  Lemma fisheye_pixel_step im w h f D0 x y (s : image A) : Repr im w h f -> x < w -> y < h -> dims s = [w; h] /\ length (pix s) = w * h ->
    fisheye_pixel inverse_root im D0 x y s = UB \/ exists s', fisheye_pixel inverse_root im D0 x y s = Ok s' /\ (dims s' = [w; h] /\ length (pix s') = w * h).
  Proof.
    intros Rf Hx Hy (D & L); rewrite (fisheye_pixel_dims im w h f) by auto.
    destruct (to_size_t_cases (IZR (rround (fe_x D0 w h x y)))) as [->|(i & ->)]; cbn [bind]; auto.
    destruct (to_size_t_cases (IZR (rround (fe_y D0 w h x y)))) as [->|(j & ->)]; cbn [bind]; auto.
    right; destruct ((i <? w) && (j <? h)) eqn:E; [|eauto]; apply andb_prop in E as (E1 & E2); apply Nat.ltb_lt in E1, E2.
    rewrite (atu_Repr _ _ _ _ _ _ Rf) by auto; cbn [bind]; rewrite (atu_set2_ok s w h) by auto; eexists; split; [reflexivity|].
    unfold im_upd; cbn [dims pix]; rewrite list_upd_length; auto.
  Qed.

  Lemma gaussian_fisheye_undefined sg s im w h f D0 : sched_ok sg -> sched1_ok s -> Repr im w h f -> 0 < w -> 0 < h -> Nat.Even h ->
    (INR w / 2 + 1 / 2 <= D0)%R -> (D0 * exp (- (1 / 2)) <= INR w / 2)%R ->
    gaussian_fisheye d sg inverse_root im D0 = UB /\ gaussian_fisheye_policy d s inverse_root im D0 = UB.
  Proof.
    intros Hs Hs1 Rf Hw Hh (k & Ek) L1 L2.
    assert (Wp : (0 < INR w)%R) by (apply lt_0_INR; auto).
    assert (Bad : forall st : image A, dims st = [w; h] /\ length (pix st) = w * h -> fisheye_pixel inverse_root im D0 0 k st = UB).
    { intros st (D & L); rewrite (fisheye_pixel_dims im w h f) by auto.
      assert (E : (fe_x D0 w h 0 k <= - (1 / 2))%R).
      { unfold fe_x, fe_scale; cbv zeta; rewrite Ek, mult_INR; cbn [INR].
        replace (INR k - (1 + 1) * INR k / 2)%R with 0%R by field.
        assert (EH : hypot (0 - INR w / 2) 0 = (INR w / 2)%R) by (unfold hypot; replace ((0 - INR w / 2) * (0 - INR w / 2) + 0 * 0)%R with ((INR w / 2) * (INR w / 2))%R by ring; apply sqrt_square; lra).
        rewrite EH, reqb_false by lra; unfold inverse_root; rewrite (proj2 (rleb_false (INR w / 2) 0)) by lra.
        rewrite (proj2 (rleb_spec (D0 * exp (- (1 / 2))) (INR w / 2))) by lra.
        replace ((0 - INR w / 2) * (D0 / (INR w / 2)) + INR w / 2)%R with (INR w / 2 - D0)%R by (field; lra); lra. }
      rewrite to_size_t_IZR_UB by (apply rround_low; auto); auto. }
    assert (Dm : dims (image_sizes d [w; h]) = [w; h] /\ length (pix (image_sizes d [w; h])) = w * h) by (split; [auto | apply (Repr_sizes d w h)]).
    unfold gaussian_fisheye, gaussian_fisheye_policy; rewrite (check2d_Repr _ _ _ _ Rf), (get_width_Repr _ _ _ _ Rf), (get_height_Repr _ _ _ _ Rf); cbn [bind]; split.
    - apply (for_list_UB (fun st => dims st = [w; h] /\ length (pix st) = w * h) _ _ (k, 0)); auto.
      + intros p st Hp; apply (sched_in sg) in Hp; auto; intros; apply (fisheye_pixel_step im w h f); auto; tauto.
      + apply (sched_in sg); auto; cbn [fst snd]; lia.
    - apply (for_list_UB (fun st => dims st = [w; h] /\ length (pix st) = w * h) _ _ (k * w)); auto.
      + intros p st Hp; apply (sched1_in s) in Hp; auto; intros; apply (fisheye_pixel_step im w h f); auto.
        * apply Nat.mod_upper_bound; lia.
        * apply Nat.div_lt_upper_bound; lia.
      + apply (sched1_in s); auto; nia.
      + intros st Pst; rewrite Nat.mod_mul, Nat.div_mul by lia; auto.
  Qed.
End Gaussian.
