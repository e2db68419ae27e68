(** OrientProofs.v - lemmas for the orientations and descriptors of keypoints (SiftModel). *)
From Coq Require Import Reals Lra ZifyBool ZifyNat.
From Verif Require Import Base BigSum RSum ImageModel ImageFacts ImageProofs OField LinModel JacobiModel JacobiProofs GeomModel CropProofs
  NestedModel CubeProofs SiftModel SiftProofs.
Open Scope nat_scope.

(** ** polar coordinates *)
Lemma atan2_range y x : (- PI < atan2 y x <= PI)%R.
Proof.
  pose proof PI_RGT_0 as P; pose proof (atan_bound (y / x)) as B; unfold atan2.
  destruct (rltb 0 x) eqn:E1; [lra|]; apply rltb_false in E1.
  destruct (rltb x 0) eqn:E2.
  - apply rltb_spec in E2; destruct (rltb y 0) eqn:E3.
    + apply rltb_spec in E3; split; [|lra].
      assert (0 < y / x)%R by (replace (y / x)%R with ((- y) / (- x))%R by (field; lra); apply Rdiv_lt_0_compat; lra).
      assert (0 < atan (y / x))%R by (rewrite <- atan_0; apply atan_increasing; auto); lra.
    + apply rltb_false in E3; split; [lra|].
      assert (y / x <= 0)%R.
      { replace (y / x)%R with (- y * / - x)%R by (field; lra).
        assert (0 < / - x)%R by (apply Rinv_0_lt_compat; lra); nra. }
      assert (atan (y / x) <= atan 0)%R by (destruct (Req_dec (y / x) 0) as [->|N]; [lra | left; apply atan_increasing; lra]).
      rewrite atan_0 in *; lra.
  - destruct (rltb 0 y); [lra|]; destruct (rltb y 0); lra.
Qed.

Lemma atan2_polar y x : let m := sqrt (x * x + y * y) in (x = m * cos (atan2 y x) /\ y = m * sin (atan2 y x))%R.
Proof.
  cbv zeta; set (t := atan2 y x); set (m := sqrt (x * x + y * y)).
  assert (M : (m * m = x * x + y * y)%R) by (apply sqrt_sqrt; nra).
  assert (M0 : (0 <= m)%R) by apply sqrt_pos.
  pose proof (atan2_spec y x) as S; fold t in S.
  pose proof (sin2_cos2 t) as U; unfold Rsqr in U.
  (* r := x cos t + y sin t is the signed length; it is not negative *)
  set (r := (x * cos t + y * sin t)%R).
  assert (X : (x = r * cos t)%R) by (unfold r; transitivity (x * (sin t * sin t + cos t * cos t))%R; [rewrite U; ring|];
    transitivity (x * cos t * cos t + (sin t * x) * sin t)%R; [ring|]; rewrite S; ring).
  assert (Y : (y = r * sin t)%R) by (unfold r; transitivity (y * (sin t * sin t + cos t * cos t))%R; [rewrite U; ring|];
    transitivity (y * sin t * sin t + (cos t * y) * cos t)%R; [ring|]; rewrite <- S; ring).
  assert (R0 : (0 <= r)%R).
  { clear M M0 m; unfold r, t; clear - X Y; pose proof PI_RGT_0 as P.
    assert (C : forall u, (0 < cos (atan u))%R) by (intros u; apply cos_gt_0; pose proof (atan_bound u); lra).
    assert (G : forall u, (sin (atan u) = cos (atan u) * u)%R).
    { intros u; pose proof (tan_atan u) as T; unfold tan in T; rewrite <- T at 3; specialize (C u); field; lra. }
    unfold atan2; destruct (rltb 0 x) eqn:E1.
    - apply rltb_spec in E1; rewrite G; specialize (C (y / x)%R).
      replace (x * cos (atan (y / x)) + y * (cos (atan (y / x)) * (y / x)))%R with (cos (atan (y / x)) * ((x * x + y * y) / x))%R by (field; lra).
      apply Rmult_le_pos; [lra|]; apply Rmult_le_pos; [nra | left; apply Rinv_0_lt_compat; lra].
    - apply rltb_false in E1; destruct (rltb x 0) eqn:E2.
      + apply rltb_spec in E2.
        assert (K : (x * - cos (atan (y / x)) + y * - sin (atan (y / x)) = cos (atan (y / x)) * ((x * x + y * y) / - x))%R) by (rewrite G; field; lra).
        assert (L : (0 <= cos (atan (y / x)) * ((x * x + y * y) / - x))%R).
        { specialize (C (y / x)%R); apply Rmult_le_pos; [lra|]; apply Rmult_le_pos; [nra | left; apply Rinv_0_lt_compat; lra]. }
        destruct (rltb y 0).
        * unfold Rminus; rewrite sin_plus, cos_plus, cos_neg, sin_neg, cos_PI, sin_PI; nra.
        * rewrite neg_sin, neg_cos; lra.
      + apply rltb_false in E2; assert (x = 0%R) as -> by lra.
        destruct (rltb 0 y) eqn:E3; [apply rltb_spec in E3; rewrite sin_PI2; lra|].
        destruct (rltb y 0) eqn:E4; [apply rltb_spec in E4; rewrite sin_neg, sin_PI2; lra|].
        rewrite rltb_false in E3, E4; assert (y = 0%R) as -> by lra; lra. }
  assert (RM : r = m).
  { assert (r * r = m * m)%R.
    { rewrite M, X, Y at 1; rewrite X at 1; rewrite Y at 1.
      transitivity (r * r * (sin t * sin t + cos t * cos t))%R; [rewrite U; ring | ring]. }
    nra. }
  rewrite <- RM; auto.
Qed.

(** the angle in degrees, shifted by 180 *)
Definition polar (m o dx dy : R) : Prop :=
  (0 <= m /\ 0 < o <= 360 /\ dx = m * cos ((o - 180) * PI / 180) /\ dy = m * sin ((o - 180) * PI / 180) /\ (m = 0 -> o = 180))%R.

Lemma atan2_00 : atan2 0 0 = 0%R.
Proof. unfold atan2; rewrite (proj2 (rltb_false 0 0)) by lra; auto. Qed.

Lemma polar_of dx dy : polar (sqrt (dx * dx + dy * dy)) (atan2 dy dx * (180 / PI) + 180) dx dy.
Proof.
  pose proof PI_RGT_0 as P; pose proof (atan2_range dy dx) as B; pose proof (atan2_polar dy dx) as Q; cbv zeta in Q.
  assert (A : ((atan2 dy dx * (180 / PI) + 180 - 180) * PI / 180 = atan2 dy dx)%R) by (field; lra).
  unfold polar; rewrite A.
  assert (E : (atan2 dy dx * (180 / PI) * PI = atan2 dy dx * 180)%R) by (field; lra).
  split; [apply sqrt_pos|]; split; [split; nra|]; split; [apply Q|]; split; [apply Q|].
  intros Z; apply sqrt_eq_0 in Z; [|nra]; assert (dx = 0%R) as -> by nra; assert (dy = 0%R) as -> by nra; rewrite atan2_00; ring.
Qed.

(** the pair (magnitude, angle) is determined by the gradient *)
Lemma polar_unique m o m' o' dx dy : polar m o dx dy -> polar m' o' dx dy -> m = m' /\ o = o'.
Proof.
  intros (M & O & X & Y & Z) (M' & O' & X' & Y' & Z').
  pose proof (sin2_cos2 ((o - 180) * PI / 180)) as U; pose proof (sin2_cos2 ((o' - 180) * PI / 180)) as U'; unfold Rsqr in *.
  assert (E : m = m').
  { assert (m * m = m' * m')%R; [|nra].
    transitivity (dx * dx + dy * dy)%R.
    - rewrite X, Y; transitivity (m * m * (sin ((o - 180) * PI / 180) * sin ((o - 180) * PI / 180) + cos ((o - 180) * PI / 180) * cos ((o - 180) * PI / 180)))%R; [rewrite U; ring | ring].
    - rewrite X', Y'; symmetry; transitivity (m' * m' * (sin ((o' - 180) * PI / 180) * sin ((o' - 180) * PI / 180) + cos ((o' - 180) * PI / 180) * cos ((o' - 180) * PI / 180)))%R; [rewrite U'; ring | ring]. }
  split; auto; subst m'; destruct (Req_dec m 0) as [->|N]; [rewrite Z, Z'; auto|].
  set (a := ((o - 180) * PI / 180)%R) in *; set (b := ((o' - 180) * PI / 180)%R) in *; pose proof PI_RGT_0 as P.
  assert (C : cos a = cos b) by (apply Rmult_eq_reg_l with m; auto; congruence).
  assert (S : sin a = sin b) by (apply Rmult_eq_reg_l with m; auto; congruence).
  assert (A : (- PI < a <= PI)%R) by (unfold a; nra); assert (B : (- PI < b <= PI)%R) by (unfold b; nra).
  assert (SD : sin (a - b) = 0%R) by (rewrite sin_minus, C, S; ring).
  assert (CD : cos (a - b) = 1%R) by (rewrite cos_minus, C, S; rewrite Rplus_comm; exact U').
  assert (AB : a = b).
  { destruct (Rtotal_order a b) as [L|[L|L]]; auto; exfalso.
    - assert (SB : (sin (b - a) = 0)%R) by (replace (b - a)%R with (- (a - b))%R by ring; rewrite sin_neg, SD; ring).
      assert (CB : (cos (b - a) = 1)%R) by (replace (b - a)%R with (- (a - b))%R by ring; rewrite cos_neg; auto).
      destruct (Rtotal_order (b - a) PI) as [H|[H|H]].
      + pose proof (sin_gt_0 (b - a)); lra.
      + rewrite H, cos_PI in CB; lra.
      + pose proof (sin_lt_0 (b - a)); lra.
    - destruct (Rtotal_order (a - b) PI) as [H|[H|H]].
      + pose proof (sin_gt_0 (a - b)); lra.
      + rewrite H, cos_PI in CD; lra.
      + pose proof (sin_lt_0 (a - b)); lra. }
  unfold a, b in AB; nra.
Qed.

Definition mag_of (dx dy : R) : R := sqrt (dx * dx + dy * dy).
Definition ang_of (dx dy : R) : R := (atan2 dy dx * (180 / PI) + 180)%R.

Lemma pixel_orientation_ok im f : Repr im 3 3 f ->
  compute_each_pixel_orientation im = Ok (mag_of (f 2 1 - f 0 1) (f 1 2 - f 1 0), ang_of (f 2 1 - f 0 1) (f 1 2 - f 1 0)).
Proof.
  intros R; pose proof R as (D & _); unfold compute_each_pixel_orientation, get_dimensionality; rewrite D; cbn [length Nat.eqb negb].
  rewrite (get_width_Repr _ _ _ _ R), (get_height_Repr _ _ _ _ R); cbn [bind Nat.eqb negb orb].
  rewrite !(atu_Repr _ _ _ _ _ _ R) by lia; reflexivity.
Qed.

(** the pixel (x, y) of an image of w x h that is zero outside *)
Definition zext (f : nat -> nat -> R) (w h : nat) (x y : Z) : R :=
  if (0 <=? x)%Z && (x <? Z.of_nat w)%Z && (0 <=? y)%Z && (y <? Z.of_nat h)%Z then f (Z.to_nat x) (Z.to_nat y) else 0%R.
(** its central differences *)
Definition grad_x f w h (x y : nat) : R := (zext f w h (Z.of_nat x + 1) (Z.of_nat y) - zext f w h (Z.of_nat x - 1) (Z.of_nat y))%R.
Definition grad_y f w h (x y : nat) : R := (zext f w h (Z.of_nat x) (Z.of_nat y + 1) - zext f w h (Z.of_nat x) (Z.of_nat y - 1))%R.
Definition mag f w h x y : R := mag_of (grad_x f w h x y) (grad_y f w h x y).
Definition ang f w h x y : R := ang_of (grad_x f w h x y) (grad_y f w h x y).

Lemma orientation_at im w h f x y : Repr im w h f -> x < w -> y < h -> (Z.of_nat w <= 2 ^ 63)%Z -> (Z.of_nat h <= 2 ^ 63)%Z ->
  exists o, subimage 0%R im [3; 3] [x; y] 0%R = Ok o /\ compute_each_pixel_orientation o = Ok (mag f w h x y, ang f w h x y).
Proof.
  intros R X Y W H.
  destruct (subimage_Repr 0%R im w h f 3 3 x y 0%R R) as (o & E & Ro); auto; try lia; try (unfold fits, two64; lia).
  exists o; split; auto; rewrite (pixel_orientation_ok o _ Ro); cbv zeta.
  assert (G : forall a b, (let u := crop_pos x 3 a in let v := crop_pos y 3 b in
     if (0 <=? u)%Z && (u <? Z.of_nat w)%Z && ((0 <=? v)%Z && (v <? Z.of_nat h)%Z) then f (Z.to_nat u) (Z.to_nat v) else 0%R) =
     zext f w h (Z.of_nat x + Z.of_nat a - 1) (Z.of_nat y + Z.of_nat b - 1)).
  { intros a b; cbv zeta; unfold zext, crop_pos; change (3 / 2) with 1.
    replace (Z.of_nat x - Z.of_nat 1 + Z.of_nat a)%Z with (Z.of_nat x + Z.of_nat a - 1)%Z by lia.
    replace (Z.of_nat y - Z.of_nat 1 + Z.of_nat b)%Z with (Z.of_nat y + Z.of_nat b - 1)%Z by lia.
    rewrite !andb_assoc; reflexivity. }
  cbv zeta in G; rewrite !G; unfold mag, ang, grad_x, grad_y.
  replace (Z.of_nat x + Z.of_nat 2 - 1)%Z with (Z.of_nat x + 1)%Z by lia; replace (Z.of_nat y + Z.of_nat 2 - 1)%Z with (Z.of_nat y + 1)%Z by lia.
  replace (Z.of_nat x + Z.of_nat 1 - 1)%Z with (Z.of_nat x) by lia; replace (Z.of_nat y + Z.of_nat 1 - 1)%Z with (Z.of_nat y) by lia.
  replace (Z.of_nat x + Z.of_nat 0 - 1)%Z with (Z.of_nat x - 1)%Z by lia; replace (Z.of_nat y + Z.of_nat 0 - 1)%Z with (Z.of_nat y - 1)%Z by lia.
  reflexivity.
Qed.

Lemma mag_ang_polar f w h x y : polar (mag f w h x y) (ang f w h x y) (grad_x f w h x y) (grad_y f w h x y).
Proof. apply polar_of. Qed.

(** ** weighted histograms *)
Definition bin_of (width : R) (a : R) : nat := Z.to_nat (Int_part (a / width)).
Lemma to_size_t_bin width a : (0 < width)%R -> (0 <= a <= 360)%R -> (1 <= width)%R -> to_size_t (a / width) = Ok (bin_of width a).
Proof.
  intros W A W1.
  assert (I : (0 < / width <= 1)%R) by (split; [apply Rinv_0_lt_compat; auto | rewrite <- Rinv_1; apply Rinv_le_contravar; lra]).
  assert (B : (0 <= a / width <= 360)%R) by (unfold Rdiv; split; nra).
  unfold to_size_t; rewrite (proj2 (rleb_false _ _)) by lra; rewrite (proj2 (rleb_false _ _)); [auto|].
  apply Rle_lt_trans with 360%R; [lra | apply IZR_lt; reflexivity].
Qed.
Lemma bin_of_spec width a b : (0 < width)%R -> (0 <= a)%R -> bin_of width a = b <-> (INR b * width <= a < INR (S b) * width)%R.
Proof.
  intros W A; unfold bin_of; destruct (base_Int_part (a / width)) as (B1 & B2).
  assert (Q : (a = a / width * width)%R) by (field; lra).
  assert (Q0 : (0 <= a / width)%R) by (apply Rmult_le_pos; [auto | left; apply Rinv_0_lt_compat; auto]).
  assert (Z0 : (0 <= Int_part (a / width))%Z) by (apply Z.lt_succ_r, lt_IZR; unfold Z.succ; rewrite plus_IZR; lra).
  rewrite S_INR; split.
  - intros <-; rewrite INR_IZR_INZ, Z2Nat.id by auto; set (q := (a / width)%R) in *; rewrite Q; split; [apply Rmult_le_compat_r; lra | apply Rmult_lt_compat_r; lra].
  - intros (L & U); rewrite Q in L, U; apply Rmult_le_reg_r in L; auto; apply Rmult_lt_reg_r in U; auto.
    rewrite INR_IZR_INZ in L, U; assert (Int_part (a / width) = Z.of_nat b); [|lia].
    assert (Int_part (a / width) < Z.of_nat b + 1)%Z by (apply lt_IZR; rewrite plus_IZR; lra).
    assert (Z.of_nat b < Int_part (a / width) + 1)%Z by (apply lt_IZR; rewrite plus_IZR; lra); lia.
Qed.

Lemma hist_add_ok hist b v : b < length hist -> exists hist', hist_add hist b v = Ok hist' /\ length hist' = length hist /\
  forall k, nth k hist' 0%R = (nth k hist 0 + if k =? b then v else 0)%R.
Proof.
  intros B; unfold hist_add; destruct (vget_lt hist b B) as (o & -> & E); cbn [bind]; rewrite vset_ok by auto.
  eexists; split; [reflexivity|]; split; [apply list_upd_length|]; intros k.
  destruct (Nat.eqb_spec k b) as [->|N].
  - rewrite (nth_error_nth _ _ _ (list_upd_same b (o + v)%R hist B)); rewrite (nth_error_nth _ _ _ E); ring.
  - rewrite Rplus_0_r;
    assert (nth_error (list_upd b (o + v)%R hist) k = nth_error hist k) as EE by (apply list_upd_other; auto).
    rewrite <- !nth_default_eq; unfold nth_default; rewrite EE; auto.
Qed.

Lemma hist_loop {P} (l : list P) (skip : P -> bool) (bin : P -> nat) (v : P -> R) (body : P -> list R -> res (list R)) n :
  (forall p hist, In p l -> body p hist = if skip p then Ok hist else hist_add hist (bin p) (v p)) ->
  (forall p, In p l -> skip p = false -> bin p < n) ->
  forall hist, length hist = n -> exists hist', for_list l body hist = Ok hist' /\ length hist' = n /\
    forall k, nth k hist' 0%R = (nth k hist 0 + rsum (fun p => if skip p then 0 else if k =? bin p then v p else 0) l)%R.
Proof.
  induction l as [|p l IH]; intros B N hist L; [exists hist; split; auto; split; auto; intros k; rewrite rsum_nil; ring|].
  cbn [for_list]; rewrite B by (cbn; auto); destruct (skip p) eqn:S; cbn [bind].
  - destruct (IH) with (hist := hist) as (hist' & E & L' & H); auto; [intros; apply B; cbn; auto | intros; apply N; cbn; auto|].
    exists hist'; split; auto; split; auto; intros k; rewrite H, rsum_cons, S; ring.
  - destruct (hist_add_ok hist (bin p) (v p)) as (h1 & E1 & L1 & H1); [rewrite L; apply N; cbn; auto|]; rewrite E1; cbn [bind].
    destruct (IH) with (hist := h1) as (hist' & E & L' & H); auto; [intros; apply B; cbn; auto | intros; apply N; cbn; auto | congruence|].
    exists hist'; split; auto; split; auto; intros k; rewrite H, H1, rsum_cons, S; ring.
Qed.

Lemma nth_repeat0 k n : nth k (repeat 0%R n) 0%R = 0%R.
Proof. revert k; induction n as [|n IH]; intros [|k]; cbn; auto. Qed.

(** ** the orientation histogram *)
Definition window (cx cy r n : nat) : list (nat * nat) := pairs (seq (cy - r) n) (fun _ => seq (cx - r) n).

Lemma orientation_histogram_ok im w h f px py r : Repr im w h f -> (Z.of_nat w <= 2 ^ 63)%Z -> (Z.of_nat h <= 2 ^ 63)%Z ->
  r <= px -> r <= py -> fits (px + r) -> fits (py + r) ->
  exists hist, get_orientation_histogram im (px, py) r = Ok hist /\ length hist = 37 /\
    forall b, nth b hist 0%R = rsum (fun p => if (snd p <? w) && (fst p <? h) then
      (if b =? bin_of 10 (ang f w h (snd p) (fst p)) then mag f w h (snd p) (fst p) else 0) else 0)%R (window px py r (2 * r + 1)).
Proof.
  intros R W H RX RY FX FY; pose proof R as (D & _); unfold get_orientation_histogram, get_dimensionality; rewrite D; cbn [length Nat.eqb negb].
  cbn [fst snd]; rewrite !usub_le, !uadd_fits by (unfold fits in *; lia).
  rewrite for_list_nested.
  destruct (hist_loop (pairs (up_to (py - r) (py + r)) (fun _ => up_to (px - r) (px + r))) (fun p => (w <=? snd p) || (h <=? fst p))
    (fun p => bin_of 10 (ang f w h (snd p) (fst p))) (fun p => mag f w h (snd p) (fst p))
    (fun p hist => let* w := get_width im in let* h := get_height im in if (w <=? snd p) || (h <=? fst p) then Ok hist else
      let* sub := subimage 0%R im [3; 3] [snd p; fst p] 0%R in
      let* (magnitude, orientation) := compute_each_pixel_orientation sub in
      let* bin := to_size_t (orientation / 10)%R in hist_add hist bin magnitude) 37) with (hist := repeat 0%R 37) as (hist & E & L & N); auto.
  - intros [y x] hist _; cbn [fst snd]; rewrite (get_width_Repr _ _ _ _ R), (get_height_Repr _ _ _ _ R); cbn [bind].
    destruct (Nat.leb_spec w x), (Nat.leb_spec h y); cbn [orb]; auto.
    destruct (orientation_at im w h f x y R) as (o & -> & EO); auto; cbn [bind]; rewrite EO; cbn [bind].
    pose proof (mag_ang_polar f w h x y) as (_ & A & _); rewrite to_size_t_bin by lra; reflexivity.
  - intros [y x] _ _; cbn [fst snd]; pose proof (mag_ang_polar f w h x y) as (_ & A & _).
    destruct (Nat.lt_ge_cases (bin_of 10 (ang f w h x y)) 37) as [G|G]; auto.
    pose proof (proj1 (bin_of_spec 10 (ang f w h x y) _ ltac:(lra) ltac:(lra)) eq_refl) as (B & _); apply le_INR in G; cbn [INR] in G; lra.
  - exists hist; split; [exact E|]; split; auto; intros b; rewrite N, nth_repeat0, Rplus_0_l.
    unfold window, up_to; replace (S (py + r) - (py - r)) with (2 * r + 1) by lia; replace (S (px + r) - (px - r)) with (2 * r + 1) by lia.
    apply rsum_ext; intros [y x] _; cbn [fst snd].
    destruct (Nat.leb_spec w x), (Nat.leb_spec h y), (Nat.ltb_spec x w), (Nat.ltb_spec y h); cbn [orb andb]; auto; lia.
Qed.

Lemma for_list_id {I S} (l : list I) (body : I -> S -> res S) s : (forall i s, body i s = Ok s) -> for_list l body s = Ok s.
Proof. intros H; induction l as [|i l IH]; cbn; auto; rewrite H; auto. Qed.

Lemma orientation_histogram_border im w h f px py r : Repr im w h f -> px < r \/ py < r -> fits (px + r) -> fits (py + r) -> fits (2 * r + 1) ->
  get_orientation_histogram im (px, py) r = Ok (repeat 0%R 37).
Proof.
  intros R B FX FY FR; pose proof R as (D & _); unfold get_orientation_histogram, get_dimensionality; rewrite D; cbn [length Nat.eqb negb fst snd].
  assert (G : forall p, p < r -> fits (p + r) -> up_to (usub p r) (uadd p r) = []).
  { intros p P F; unfold up_to; rewrite uadd_fits by auto; pose proof (usub_gt p r ltac:(unfold fits in *; lia) P).
    replace (S (p + r) - usub p r) with 0 by (unfold fits in *; lia); reflexivity. }
  destruct B as [B|B]; rewrite (G _ B) by auto; [|reflexivity]; apply for_list_id; reflexivity.
Qed.

(** ** the descriptor *)
Lemma wrap_index x c r : c - r <= x -> x < c + r -> r <= c -> fits (c + r) -> uadd (usub x c) r = x - (c - r).
Proof.
  intros L U RC F; unfold uadd, usub, wn, w64, fits in *.
  rewrite Z2Nat.id by (apply Z.mod_pos_bound; unfold two64; lia).
  rewrite Zplus_mod_idemp_l, Z.mod_small by lia; lia.
Qed.

(** pixels written by a loop: [g] gives the value of every position *)
Lemma write_loop {A P} (l : list P) (skip : P -> bool) (px py : P -> nat) (g : nat -> nat -> A) (body : P -> image A -> res (image A)) w h :
  (forall p im, In p l -> body p im = if skip p then Ok im else at_set im [px p; py p] (g (px p) (py p))) ->
  (forall p, In p l -> skip p = false -> px p < w /\ py p < h) ->
  forall im f, Repr im w h f -> exists im', for_list l body im = Ok im' /\
    Repr im' w h (fun x y => if existsb (fun p => negb (skip p) && (px p =? x) && (py p =? y)) l then g x y else f x y).
Proof.
  induction l as [|p l IH]; intros B N im f R; [exists im; split; auto|].
  cbn [for_list]; rewrite B by (cbn; auto); destruct (skip p) eqn:S; cbn [bind].
  - destruct IH with (im := im) (f := f) as (im' & E & R'); auto; [intros; apply B; cbn; auto | intros; apply N; cbn; auto|].
    exists im'; split; auto; eapply Repr_ext; [exact R'|]; intros x y X Y; cbn [existsb]; rewrite S; reflexivity.
  - destruct (N p) as (NX & NY); [cbn; auto | auto|].
    destruct (at_set_Repr im w h f (px p) (py p) (g (px p) (py p)) R NX NY) as (i1 & E1 & R1); rewrite E1; cbn [bind].
    destruct IH with (im := i1) (f := fun x y => if (x =? px p) && (y =? py p) then g (px p) (py p) else f x y) as (im' & E & R'); auto;
      [intros; apply B; cbn; auto | intros; apply N; cbn; auto|].
    exists im'; split; auto; eapply Repr_ext; [exact R'|]; intros x y X Y; cbn [existsb]; rewrite S; cbn [negb andb].
    destruct (existsb _ l); [rewrite orb_true_r; auto|]; rewrite orb_false_r.
    rewrite (Nat.eqb_sym x), (Nat.eqb_sym y); destruct (Nat.eqb_spec (px p) x), (Nat.eqb_spec (py p) y); cbn [andb]; subst; auto.
Qed.

Definition block (f : nat -> nat -> R) (w h cx cy r : nat) (i j : nat) : R * R :=
  if (r <=? cx) && (r <=? cy) && (cx - r + i <? w) && (cy - r + j <? h)
  then (mag f w h (cx - r + i) (cy - r + j), ang f w h (cx - r + i) (cy - r + j)) else (0, 0)%R.

Lemma pixel_orientations_ok im w h f cx cy r : Repr im w h f -> (Z.of_nat w <= 2 ^ 63)%Z -> (Z.of_nat h <= 2 ^ 63)%Z ->
  fits (cx + r) -> fits (cy + r) -> fits (2 * r) ->
  exists o, pixel_orientations im (cx, cy) r = Ok o /\ Repr o (r * 2) (r * 2) (block f w h cx cy r).
Proof.
  intros R W H FX FY FR; unfold pixel_orientations; cbn [fst snd].
  pose proof (Repr_sizes (0, 0)%R (r * 2) (r * 2)) as R0.
  assert (G : forall p, p < r -> fits (p + r) -> below (usub p r) (uadd p r) = []).
  { intros p P F; unfold below; rewrite uadd_fits by auto; pose proof (usub_gt p r ltac:(unfold fits in *; lia) P).
    replace (p + r - usub p r) with 0 by (unfold fits in *; lia); reflexivity. }
  destruct (Nat.leb_spec r cy) as [RY|RY].
  2:{ rewrite (G cy RY) by auto; eexists; split; [reflexivity|]; eapply Repr_ext; [exact R0|]; intros i j _ _; unfold block.
      rewrite (proj2 (Nat.leb_gt r cy)) by auto; rewrite andb_false_r; reflexivity. }
  destruct (Nat.leb_spec r cx) as [RX|RX].
  2:{ rewrite (G cx RX) by auto; rewrite for_list_id by reflexivity; eexists; split; [reflexivity|]; eapply Repr_ext; [exact R0|]; intros i j _ _; unfold block.
      rewrite (proj2 (Nat.leb_gt r cx)) by auto; reflexivity. }
  rewrite for_list_nested; rewrite !usub_le, !uadd_fits by (unfold fits in *; lia).
  destruct (write_loop (pairs (below (cy - r) (cy + r)) (fun _ => below (cx - r) (cx + r))) (fun p => (w <=? snd p) || (h <=? fst p))
     (fun p => uadd (usub (snd p) cx) r) (fun p => uadd (usub (fst p) cy) r) (fun i j => (mag f w h (cx - r + i) (cy - r + j), ang f w h (cx - r + i) (cy - r + j)))
     (fun p out => let* w := get_width im in let* h := get_height im in if (w <=? snd p) || (h <=? fst p) then Ok out else
       let* sub := subimage 0%R im [3; 3] [snd p; fst p] 0%R in
       let* o := compute_each_pixel_orientation sub in
       at_set out [uadd (usub (snd p) cx) r; uadd (usub (fst p) cy) r] o) (r * 2) (r * 2)) with (im := image_sizes (0, 0)%R [r * 2; r * 2]) (f := fun _ _ : nat => (0, 0)%R)
     as (o & E & Ro); auto.
  - intros [y x] out I; apply in_pairs in I; cbn [fst snd] in *; unfold below in I; rewrite !in_seq in I.
    rewrite (get_width_Repr _ _ _ _ R), (get_height_Repr _ _ _ _ R); cbn [bind].
    destruct (Nat.leb_spec w x), (Nat.leb_spec h y); cbn [orb]; auto.
    destruct (orientation_at im w h f x y R) as (s & -> & EO); auto; cbn [bind]; rewrite EO; cbn [bind].
    rewrite !wrap_index by (auto; lia); replace (cx - r + (x - (cx - r))) with x by lia; replace (cy - r + (y - (cy - r))) with y by lia; reflexivity.
  - intros [y x] I _; apply in_pairs in I; cbn [fst snd] in *; unfold below in I; rewrite !in_seq in I; rewrite !wrap_index by (auto; lia); lia.
  - exists o; split; [exact E|]; eapply Repr_ext; [exact Ro|]; intros i j I J; cbv beta; unfold block.
    rewrite (proj2 (Nat.leb_le r cx)), (proj2 (Nat.leb_le r cy)) by auto; cbn [andb].
    match goal with |- (if ?b then _ else _) = _ => replace b with ((cx - r + i <? w) && (cy - r + j <? h)); auto end.
    apply eq_true_iff_eq; rewrite andb_true_iff, !Nat.ltb_lt, existsb_exists; split.
    + intros (X & Y); exists (cy - r + j, cx - r + i); split.
      * apply in_pairs; cbn [fst snd]; unfold below; rewrite !in_seq; lia.
      * cbn [fst snd]; rewrite !wrap_index by (auto; lia); lia.
    + intros ([y x] & I' & B); apply in_pairs in I'; cbn [fst snd] in *; unfold below in I'; rewrite !in_seq in I'.
      rewrite !wrap_index in B by (auto; lia); lia.
Qed.

Lemma block_range f w h cx cy r i j : (0 <= snd (block f w h cx cy r i j) <= 360)%R.
Proof.
  unfold block; destruct (_ && _); cbn [snd]; [|lra]; pose proof (mag_ang_polar f w h (cx - r + i) (cy - r + j)) as (_ & A & _); lra.
Qed.

Definition bin8 (a : R) : nat := if bin_of 45 a =? 8 then 7 else bin_of 45 a.
Lemma bin8_lt a : (0 <= a <= 360)%R -> bin8 a < 8.
Proof.
  intros A; unfold bin8; destruct (Nat.eqb_spec (bin_of 45 a) 8); [lia|].
  pose proof (proj1 (bin_of_spec 45 a _ ltac:(lra) ltac:(lra)) eq_refl) as (B & _).
  destruct (Nat.lt_ge_cases (bin_of 45 a) 8) as [G|G]; auto; assert (G' : 9 <= bin_of 45 a) by lia; apply le_INR in G'; cbn [INR] in G'; lra.
Qed.
Lemma bin8_spec a b : (0 <= a <= 360)%R -> b < 8 -> bin8 a = b <-> (INR b * 45 <= a /\ (a < INR (S b) * 45 \/ b = 7%nat))%R.
Proof.
  intros A B; pose proof (bin_of_spec 45 a) as S; unfold bin8; destruct (Nat.eqb_spec (bin_of 45 a) 8) as [E|N].
  - apply S in E; [|lra|lra]; cbn [INR] in E; split; [intros <-; cbn [INR]; split; [lra | auto]|].
    intros (L & [U|U]); auto; apply (le_INR (Datatypes.S b) 8) in B; assert (INR 8 = 8)%R by (cbn; lra); lra.
  - rewrite S by lra; split; [intros (L & U); auto|]; intros (L & [U| ->]); [auto|].
    split; auto; assert (bin_of 45 a < 8) as G by (pose proof (bin8_lt a A) as Q; unfold bin8 in Q; destruct (Nat.eqb_spec (bin_of 45 a) 8); lia).
    pose proof (proj1 (S (bin_of 45 a) ltac:(lra) ltac:(lra)) eq_refl) as (_ & U); apply (le_INR (Datatypes.S (bin_of 45 a)) 8) in G; lra.
Qed.

Definition in_bin8 (g : nat -> nat -> R * R) (b x y : nat) : R := if b =? bin8 (snd (g x y)) then fst (g x y) else 0%R.
Lemma subregion_ok o n g sx sy : Repr o n n g -> (forall i j, (0 <= snd (g i j) <= 360)%R) -> sx * 4 + 4 <= n -> sy * 4 + 4 <= n ->
  exists hist, subregion_histogram o sx sy = Ok hist /\ length hist = 8 /\
    forall b, nth b hist 0%R = rsum (fun p => in_bin8 g b (sx * 4 + snd p) (sy * 4 + fst p)) (grid 4 4).
Proof.
  intros R GA SX SY; unfold subregion_histogram, for_range; rewrite for_list_nested.
  destruct (hist_loop (pairs (seq 0 4) (fun _ => seq 0 4)) (fun _ => false) (fun p => bin8 (snd (g (sx * 4 + snd p) (sy * 4 + fst p))))
    (fun p => fst (g (sx * 4 + snd p) (sy * 4 + fst p)))
    (fun p hist => let* (magnitude, orientation) := at_ o [sx * 4 + snd p; sy * 4 + fst p] in
      let* bin := to_size_t (orientation / 45)%R in let bin := if bin =? 8 then 7 else bin in hist_add hist bin magnitude) 8)
    with (hist := repeat 0%R 8) as (hist & E & L & N); auto.
  - intros [y x] hist I; apply in_pairs in I; cbn [fst snd] in *; rewrite !in_seq in I; rewrite (at_Repr _ _ _ _ _ _ R) by lia; cbn [bind].
    pose proof (GA (sx * 4 + x) (sy * 4 + y)) as A; destruct (g (sx * 4 + x) (sy * 4 + y)) as [m a]; cbn [fst snd] in *.
    rewrite to_size_t_bin by lra; reflexivity.
  - intros [y x] _ _; apply bin8_lt, GA.
  - exists hist; split; [exact E|]; split; auto; intros b; rewrite N, nth_repeat0, Rplus_0_l; reflexivity.
Qed.

Lemma flat_map_length_const {T} (e : nat -> list T) m n s : (forall i, length (e i) = m) -> length (flat_map e (seq s n)) = n * m.
Proof. intros L; revert s; induction n as [|n IH]; intros s; cbn; auto; rewrite app_length, L, IH; auto. Qed.

Lemma descriptor_ok im w h f cx cy r : Repr im w h f -> (Z.of_nat w <= 2 ^ 63)%Z -> (Z.of_nat h <= 2 ^ 63)%Z ->
  fits (cx + r) -> fits (cy + r) -> fits (2 * r) -> 8 <= r ->
  exists d, get_keypoint_descriptor im (cx, cy) r = Ok d /\ length d = 128 /\
    forall sx sy b, sx < 4 -> sy < 4 -> b < 8 ->
      nth ((sy * 4 + sx) * 8 + b) d 0%R = rsum (fun p => in_bin8 (block f w h cx cy r) b (sx * 4 + snd p) (sy * 4 + fst p)) (grid 4 4).
Proof.
  intros RI W H FX FY FR R8; unfold get_keypoint_descriptor.
  destruct (pixel_orientations_ok im w h f cx cy r RI W H FX FY FR) as (o & -> & Ro); cbn [bind].
  set (g := block f w h cx cy r) in *.
  assert (GA : forall i j, (0 <= snd (g i j) <= 360)%R) by (intros; apply block_range).
  set (hist := fun sx sy => match subregion_histogram o sx sy with Ok l => if length l =? 8 then l else repeat 0%R 8 | _ => repeat 0%R 8 end).
  assert (HL : forall sx sy, length (hist sx sy) = 8).
  { intros sx sy; unfold hist; destruct (subregion_histogram o sx sy) as [l| |]; auto; destruct (Nat.eqb_spec (length l) 8); auto. }
  assert (HO : forall sx sy, sx < 4 -> sy < 4 -> subregion_histogram o sx sy = Ok (hist sx sy) /\
     forall b, nth b (hist sx sy) 0%R = rsum (fun p => in_bin8 g b (sx * 4 + snd p) (sy * 4 + fst p)) (grid 4 4)).
  { intros sx sy X Y; destruct (subregion_ok o (r * 2) g sx sy Ro GA) as (l & E & L & N); try lia; unfold hist; rewrite E, L; auto. }
  unfold for_range at 1 2; rewrite for_list_nested.
  destruct (write_loop (pairs (seq 0 4) (fun _ => seq 0 4)) (fun _ => false) snd fst hist
    (fun p out => let* hist := subregion_histogram o (snd p) (fst p) in at_set out [snd p; fst p] hist) 4 4) with (im := image_sizes ([] : list R) [4; 4]) (f := fun _ _ : nat => ([] : list R))
    as (s & E & Rs).
  - intros [y x] out I; apply in_pairs in I; cbn [fst snd] in *; rewrite !in_seq in I; destruct (HO x y) as (-> & _); try lia; reflexivity.
  - intros [y x] I _; apply in_pairs in I; cbn [fst snd] in *; rewrite !in_seq in I; lia.
  - apply Repr_sizes.
  - cbn [fst snd] in E; rewrite E; cbn [bind].
    assert (RS : Repr s 4 4 hist).
    { eapply Repr_ext; [exact Rs|]; intros x y X Y; cbv beta; rewrite (proj2 (existsb_exists _ _)); auto; exists (y, x); split; [apply in_pairs; cbn [fst snd]; rewrite !in_seq; lia|].
      cbn [fst snd negb andb]; rewrite !Nat.eqb_refl; auto. }
    rewrite (for_range_emit 4 _ (fun sy => flat_map (fun sx => hist sx sy) (seq 0 4))).
    2:{ intros sy os Y; rewrite (for_range_emit 4 _ (fun sx => hist sx sy)); auto; intros sx os' X; rewrite (at_Repr _ _ _ _ _ _ RS) by auto; reflexivity. }
    eexists; split; [reflexivity|]; rewrite app_nil_l.
    assert (L1 : forall sy, length (flat_map (fun sx => hist sx sy) (seq 0 4)) = 32) by (intros sy; rewrite (flat_map_length_const _ 8); auto).
    split; [rewrite (flat_map_length_const _ 32); auto|].
    intros sx sy b X Y B; destruct (HO sx sy X Y) as (_ & <-).
    rewrite <- !nth_default_eq; unfold nth_default; f_equal.
    replace ((sy * 4 + sx) * 8 + b) with (sy * 32 + (sx * 8 + b)) by lia.
    rewrite (flat_map_nth _ 32) by (auto; lia); rewrite (flat_map_nth (fun sx => hist sx (0 + sy)) 8) by (auto; lia); reflexivity.
Qed.

(** a block that is too small is read beyond its extents *)
Lemma hist_add_cases hist b v : (exists h', hist_add hist b v = Ok h' /\ length h' = length hist) \/ length hist <= b.
Proof. destruct (Nat.lt_ge_cases b (length hist)) as [L|L]; auto; destruct (hist_add_ok hist b v L) as (h' & E & L' & _); left; eauto. Qed.

Lemma subregion_out o n g sx sy : Repr o n n g -> (forall i j, (0 <= snd (g i j) <= 360)%R) -> n < sx * 4 + 4 \/ n < sy * 4 + 4 ->
  subregion_histogram o sx sy = Throw OutOfRange.
Proof.
  intros R GA O; unfold subregion_histogram.
  assert (ROW : forall y hist, length hist = 8 -> y < 4 ->
    let b := for_range 4 (fun x hist => let* (magnitude, orientation) := at_ o [sx * 4 + x; sy * 4 + y] in
      let* bin := to_size_t (orientation / 45)%R in let bin := if bin =? 8 then 7 else bin in hist_add hist bin magnitude) hist in
    (n < sx * 4 + 4 \/ n <= sy * 4 + y -> b = Throw OutOfRange) /\ (b = Throw OutOfRange \/ exists h', b = Ok h' /\ length h' = 8)).
  { intros y hist L Y b.
    assert (B : forall x hist, length hist = 8 -> (n <= sx * 4 + x \/ n <= sy * 4 + y) /\ (let* (magnitude, orientation) := at_ o [sx * 4 + x; sy * 4 + y] in
      let* bin := to_size_t (orientation / 45)%R in let bin := if bin =? 8 then 7 else bin in hist_add hist bin magnitude) = Throw OutOfRange \/
      (sx * 4 + x < n /\ sy * 4 + y < n) /\ exists h', (let* (magnitude, orientation) := at_ o [sx * 4 + x; sy * 4 + y] in
      let* bin := to_size_t (orientation / 45)%R in let bin := if bin =? 8 then 7 else bin in hist_add hist bin magnitude) = Ok h' /\ length h' = 8).
    { intros x hi LH; destruct (Nat.lt_ge_cases (sx * 4 + x) n) as [X|X].
      - destruct (Nat.lt_ge_cases (sy * 4 + y) n) as [YY|YY].
        + right; split; auto; rewrite (at_Repr _ _ _ _ _ _ R) by auto; cbn [bind]; pose proof (GA (sx * 4 + x) (sy * 4 + y)) as A.
          destruct (g (sx * 4 + x) (sy * 4 + y)) as [m a]; cbn [snd] in A; rewrite to_size_t_bin by lra; cbn [bind].
          destruct (hist_add_ok hi (bin8 a) m) as (h' & E & L' & _); [rewrite LH; apply bin8_lt; auto|].
          exists h'; split; [exact E | congruence].
        + left; split; auto; rewrite (at_Repr_out _ _ _ _ _ _ R) by auto; reflexivity.
      - left; split; auto; rewrite (at_Repr_out _ _ _ _ _ _ R) by auto; reflexivity. }
    split.
    - intros Q; unfold b; destruct Q as [Q|Q].
      + apply for_range_throw with (Inv := fun _ hi => length hi = 8) (i := 3); auto.
        * intros j hi J LH; destruct (B j hi LH) as [(_ & E)|(_ & h' & E & L')]; [left; exact E | right; eauto].
        * intros hi LH; destruct (B 3 hi LH) as [(_ & E)|((C & _) & _)]; [exact E | lia].
      + apply for_range_throw with (Inv := fun _ hi => length hi = 8) (i := 0); [auto | lia | intros j ? J; exfalso; inversion J|].
        intros hi LH; destruct (B 0 hi LH) as [(_ & E)|((_ & C) & _)]; [exact E | lia].
    - unfold b, for_range; clear b; cbv zeta in B |- *; revert hist L; generalize (seq 0 4); induction l as [|x l IH]; intros hist L; [right; cbn; eauto|].
      cbn [for_list]; destruct (B x hist L) as [(_ & E)|(_ & h' & E & L')]; rewrite E; cbn [bind]; [auto | apply IH; auto]. }
  cbv zeta in ROW; destruct O as [O|O].
  - apply for_range_throw with (Inv := fun _ hi => length hi = 8) (i := 0); [auto | lia | intros j ? J; exfalso; inversion J|].
    intros hi LH; apply (ROW 0 hi LH); [lia | auto].
  - apply for_range_throw with (Inv := fun _ hi => length hi = 8) (i := 3); auto.
    + intros j hi J LH; destruct (ROW j hi LH) as (_ & [E|(h' & E & L')]); [lia | left; exact E | right; eauto].
    + intros hi LH; apply (ROW 3 hi LH); [lia | right; lia].
Qed.

Lemma descriptor_small im w h f cx cy r : Repr im w h f -> (Z.of_nat w <= 2 ^ 63)%Z -> (Z.of_nat h <= 2 ^ 63)%Z ->
  fits (cx + r) -> fits (cy + r) -> r < 8 -> get_keypoint_descriptor im (cx, cy) r = Throw OutOfRange.
Proof.
  intros R W H FX FY R8; unfold get_keypoint_descriptor.
  destruct (pixel_orientations_ok im w h f cx cy r R W H FX FY) as (o & -> & Ro); [unfold fits, two64; lia|]; cbn [bind].
  assert (GA : forall i j, (0 <= snd (block f w h cx cy r i j) <= 360)%R) by (intros; apply block_range).
  assert (B : forall sx sy im f, Repr im 4 4 f -> sx < 4 -> sy < 4 -> (let* hist := subregion_histogram o sx sy in at_set im [sx; sy] hist) = Throw OutOfRange \/
    (sx * 4 + 4 <= r * 2 /\ sy * 4 + 4 <= r * 2) /\ exists im' f', (let* hist := subregion_histogram o sx sy in at_set im [sx; sy] hist) = Ok im' /\ Repr im' 4 4 f').
  { intros sx sy i4 f4 R4 X Y; destruct (Nat.le_gt_cases (sx * 4 + 4) (r * 2)) as [A|A].
    - destruct (Nat.le_gt_cases (sy * 4 + 4) (r * 2)) as [A'|A'].
      + right; split; auto; destruct (subregion_ok o _ _ sx sy Ro GA A A') as (l & -> & _); cbn [bind].
        destruct (at_set_Repr i4 4 4 f4 sx sy l R4 X Y) as (i' & E & R'); eauto.
      + left; rewrite (subregion_out o _ _ sx sy Ro GA) by auto; reflexivity.
    - left; rewrite (subregion_out o _ _ sx sy Ro GA) by auto; reflexivity. }
  rewrite (for_range_throw 4 (fun _ i4 => exists f4, Repr i4 4 4 f4)) with (i := 0) (e := OutOfRange); [reflexivity | eexists; apply Repr_sizes | lia | intros; lia|].
  intros i4 (f4 & R4); apply (for_range_throw 4 (fun _ i4 => exists f4, Repr i4 4 4 f4)) with (i := 3); [eauto | lia | |].
  - intros j s J (f5 & R5); destruct (B j 0 s f5 R5) as [E|(_ & i' & f' & E & R')]; try lia; [left; exact E | right; exists i'; eauto].
  - intros s (f5 & R5); destruct (B 3 0 s f5 R5) as [E|(C & _)]; try lia; exact E.
Qed.
