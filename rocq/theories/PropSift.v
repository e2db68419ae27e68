(** PropSift.v - C57 extremum test, C58 octaves of the keypoint search, C86 refinement, C87 filtering, C88 local extrema,
    C89 mapping to the input image, C90 orientation, C91 orientation histogram, C92 descriptor.

    [Repr im w h f] (ImageFacts.v): im has width w, height h and pixel (x, y) is [f x y]. *)
From Coq Require Import Reals Lra ZifyBool ZifyNat Sorted Permutation.
From Verif Require Import Base BigSum RSum ImageModel ImageFacts ImageProofs OField LinModel JacobiModel GeomModel CropProofs
  WindowProofs NestedModel SiftModel SiftProofs OrientProofs.
Open Scope nat_scope.

(** the image of w x h with pixels f, for the cases *)
Definition img (w h : nat) (f : nat -> nat -> R) : image R := tab [w; h] (fun idx => f (nth 0 idx 0) (nth 1 idx 0)).
Lemma img_Repr w h f : Repr (img w h f) w h f.
Proof. apply Repr_ReprN, tab_ReprN. Qed.

(** ** C57: three 3 x 3 patches, [f k x y] is pixel (x, y) of patch k *)
Theorem C57_test im1 im2 im3 (f : nat -> nat -> nat -> R) threshold :
  Repr im1 3 3 (f 0) -> Repr im2 3 3 (f 1) -> Repr im3 3 3 (f 2) ->
  exists b, is_it_extremum im1 im2 im3 threshold = Ok b /\
    (b = true <-> Rlt threshold (Rabs (f 1 1 1)) /\
       ((forall k x y, k < 3 -> x < 3 -> y < 3 -> ~ (k = 1 /\ x = 1 /\ y = 1) -> Rlt (f k x y) (f 1 1 1)) \/
        (forall k x y, k < 3 -> x < 3 -> y < 3 -> ~ (k = 1 /\ x = 1 /\ y = 1) -> Rlt (f 1 1 1) (f k x y)))).
Proof.
  intros R1 R2 R3; destruct (is_it_extremum_spec im1 im2 im3 f threshold R1 R2 R3) as (b & E & H); exists b; split; auto; rewrite H.
  unfold neighbour; split; intros (T & [C|C]); split; auto; [left | right | left | right]; intros k x y; try intros (? & ? & ? & ?); intros; apply C; auto.
Qed.
Print Assumptions C57_test.

Theorem C57_extents im1 im2 im3 threshold : dims im1 <> [3; 3] \/ dims im2 <> [3; 3] \/ dims im3 <> [3; 3] ->
  is_it_extremum im1 im2 im3 threshold = Throw RuntimeError.
Proof. apply is_it_extremum_throws. Qed.
Print Assumptions C57_extents.

Example C57_case : exists b, is_it_extremum (img 3 3 (fun _ _ => 0%R)) (img 3 3 (fun x y => if (x =? 1) && (y =? 1) then 9%R else 0%R)) (img 3 3 (fun _ _ => 0%R)) 8 = Ok b /\ b = true.
Proof.
  destruct (C57_test _ _ _ (fun k x y => if (k =? 1) && (x =? 1) && (y =? 1) then 9%R else 0%R) 8 (img_Repr 3 3 (fun _ _ => 0%R))
    (img_Repr 3 3 (fun x y => if (x =? 1) && (y =? 1) then 9%R else 0%R)) (img_Repr 3 3 (fun _ _ => 0%R))) as (b & E & H).
  exists b; split; auto; apply H; cbn; rewrite Rabs_pos_eq by lra; split; [lra|]; left; intros k x y K X Y N.
  destruct ((k =? 1) && (x =? 1) && (y =? 1)) eqn:B; [lia | lra].
Qed.

(** ** C58 *)
(** in octaves of 20 x 20 or more the difference of Gaussians keeps the extents, for the standard deviations used (when
    that is so for difference_of_gaussian is said by C98); the resampling
    function yields the extents asked for (for lanczos_resample see C99) *)
Definition dog_shape (dog : image R -> R -> R -> res (image R)) (n levels : nat) (sigma k : R) (w h : nat) : Prop :=
  forall i index im f, i < n -> index < levels - 1 -> 20 <= w / 2 ^ i -> 20 <= h / 2 ^ i -> Repr im (w / 2 ^ i) (h / 2 ^ i) f ->
  exists o g, dog im (sigma * k ^ index)%R (sigma * k ^ (index + 1))%R = Ok o /\ Repr o (w / 2 ^ i) (h / 2 ^ i) g.
Definition resample_shape (resample : image R -> nat -> nat -> res (image R)) (n w h : nat) : Prop :=
  forall i im f, i < n -> 20 <= w / 2 ^ i -> 20 <= h / 2 ^ i -> Repr im (w / 2 ^ i) (h / 2 ^ i) f ->
  exists o g, resample im (w / 2 ^ i / 2) (h / 2 ^ i / 2) = Ok o /\ Repr o (w / 2 ^ i / 2) (h / 2 ^ i / 2) g.
Lemma dog_shape_keeps dog n levels sigma k w h : dog_shape dog n levels sigma k w h -> keeps_octaves dog n levels sigma k w h.
Proof. intros D i I W H im index L (f & R); destruct (D i index im f I L W H R) as (o & g & E & Ro); exists o; split; auto; exists g; auto. Qed.
Lemma resample_shape_ok r n w h : resample_shape r n w h -> resamples r n w h.
Proof. intros D i im I W H (f & R); destruct (D i im f I W H R) as (o & g & E & Ro); exists o; split; auto; exists g; auto. Qed.

(** when every octave asked for has extents of at least 20 and there are at least three scale levels, the search reads
    only octaves and scales that exist: the result is that of mapping the keypoints of every octave and triple of scales
    (in the order of the loops, or any other), which may fail only for the location of a keypoint *)
Theorem C58_safe dog resample order owner input w h f n levels sigma k contrast edge :
  dog_shape dog n levels sigma k w h -> resample_shape resample n w h -> Repr input w h f -> (Z.of_nat w <= 2 ^ 63)%Z -> (Z.of_nat h <= 2 ^ 63)%Z -> fits levels ->
  (forall l, Permutation (order l) l) -> (forall oi si p q, owner oi si p = owner oi si q) ->
  (forall i, i < n -> 20 <= w / 2 ^ i /\ 20 <= h / 2 ^ i) -> 3 <= levels ->
  exists octaves results, length octaves = n /\
    (forall i octave, nth_error octaves i = Some octave -> length octave = levels - 1 /\
       Forall (fun im => exists g, Repr im (w / 2 ^ i) (h / 2 ^ i) g) octave) /\
    (forall oi si, oi < n -> si < levels - 3 -> exists octave a b c,
      nth_error octaves oi = Some octave /\ nth_error octave si = Some a /\ nth_error octave (si + 1) = Some b /\ nth_error octave (si + 2) = Some c /\
      find_local_extrema (owner oi si) a b c oi si contrast edge false = Ok (results (oi, si))) /\
    get_potential_keypoint dog resample order owner input n levels sigma k contrast edge =
      mapM (fun kp : keypoint => mapping_point (snd kp) (w / 2 ^ fst (fst kp)) (h / 2 ^ fst (fst kp)) w h)
        (flat_map results (order (pairs (seq 0 n) (fun _ => seq 0 (levels - 3))))).
Proof.
  intros D RS R W H FL P OW G L.
  destruct (get_potential_keypoint_eq dog resample order owner input w h n levels sigma k contrast edge) as (octaves & results & _ & (LO & HO) & T & E);
    auto using dog_shape_keeps, resample_shape_ok; [exists f; auto|].
  exists octaves, results; split; auto; split; [|auto]; intros i o Eo; destruct (HO i o Eo) as (A & B & _); auto.
Qed.
Print Assumptions C58_safe.

(** all points are inside the image when all refined locations are inside their octaves *)
Theorem C58_points dog resample order owner input w h f n levels sigma k contrast edge :
  dog_shape dog n levels sigma k w h -> resample_shape resample n w h -> Repr input w h f -> (Z.of_nat w <= 2 ^ 63)%Z -> (Z.of_nat h <= 2 ^ 63)%Z -> fits levels ->
  (forall l, Permutation (order l) l) -> (forall oi si p q, owner oi si p = owner oi si q) ->
  (forall i, i < n -> 20 <= w / 2 ^ i /\ 20 <= h / 2 ^ i) -> 3 <= levels ->
  (forall octave a b c oi si points, build_octaves dog resample n levels sigma k input = Ok octave -> oi < n -> si < levels - 3 ->
     (exists o, nth_error octave oi = Some o /\ nth_error o si = Some a /\ nth_error o (si + 1) = Some b /\ nth_error o (si + 2) = Some c) ->
     find_local_extrema (owner oi si) a b c oi si contrast edge false = Ok points ->
     Forall (fun kp : keypoint => exists x y, snd kp = Some (x, y) /\ (0 <= x < INR (w / 2 ^ oi))%R /\ (0 <= y < INR (h / 2 ^ oi))%R) points) ->
  exists points, get_potential_keypoint dog resample order owner input n levels sigma k contrast edge = Ok points /\
    Forall (fun p => fst p < w /\ snd p < h) points.
Proof.
  intros D RS R W H FL P OW G L IN.
  destruct (get_potential_keypoint_eq dog resample order owner input w h n levels sigma k contrast edge) as (octaves & results & EO & (LO & HO) & T & E);
    auto using dog_shape_keeps, resample_shape_ok; [exists f; auto|]; rewrite E.
  assert (A : Forall (fun kp : keypoint => fst (fst kp) < n /\ exists x y, snd kp = Some (x, y) /\ (0 <= x < INR (w / 2 ^ fst (fst kp)))%R /\ (0 <= y < INR (h / 2 ^ fst (fst kp)))%R)
    (flat_map results (order (pairs (seq 0 n) (fun _ => seq 0 (levels - 3)))))).
  { apply Forall_forall; intros kp K; apply in_flat_map in K as ((oi & si) & It & K).
    apply (Permutation_in _ (P _)), in_pairs in It; cbn [fst snd] in It; rewrite !in_seq in It.
    destruct (T oi si) as (octave & a & b & c & Eo & Ea & Eb & Ec & Ef); try lia.
    assert (F : fst (fst kp) = oi).
    { destruct (HO oi octave Eo) as (Lo & Fo & Wo & Ho); rewrite Forall_forall in Fo.
      destruct (Fo a (nth_error_In _ _ Ea)) as (fa & Ra); destruct (Fo b (nth_error_In _ _ Eb)) as (fb & Rb); destruct (Fo c (nth_error_In _ _ Ec)) as (fc & Rc).
      assert (Dw : w / 2 ^ oi <= w) by (apply Nat.div_le_upper_bound; [apply Nat.pow_nonzero; lia | pose proof (Nat.pow_nonzero 2 oi ltac:(lia)); nia]).
      assert (Dh : h / 2 ^ oi <= h) by (apply Nat.div_le_upper_bound; [apply Nat.pow_nonzero; lia | pose proof (Nat.pow_nonzero 2 oi ltac:(lia)); nia]).
      destruct (find_local_extrema_eq (owner oi si) a b c _ _ (fun k => match k with 0 => fa | 1 => fb | _ => fc end) oi si contrast edge false Ra Rb Rc) as (px & _ & _ & EF); try lia.
      rewrite Ef in EF; destruct (one_owner (owner oi si) px); [|discriminate]; injection EF as EF; rewrite EF in K.
      apply in_map_iff in K as (p & <- & _); reflexivity. }
    rewrite F; split; [lia|].
    assert (Q := IN octaves a b c oi si (results (oi, si)) EO ltac:(lia) ltac:(lia) (ex_intro _ octave (conj Eo (conj Ea (conj Eb Ec)))) Ef).
    rewrite Forall_forall in Q; apply Q; auto. }
  clear E; revert A; generalize (flat_map results (order (pairs (seq 0 n) (fun _ => seq 0 (levels - 3))))); intros kps A; clear - A G W H.
  induction A as [|[[oi si] loc] kps (ON & x & y & EL & X & Y) _ (points & EP & AP)]; [exists []; cbn; auto|].
  cbn [mapM fst snd] in *; rewrite EL.
  assert (20 <= w / 2 ^ oi /\ 20 <= h / 2 ^ oi) as (G1 & G2) by auto.
  assert (0 < w) by (destruct w; [rewrite Nat.div_0_l in G1 by (apply Nat.pow_nonzero; lia); lia | lia]).
  assert (0 < h) by (destruct h; [rewrite Nat.div_0_l in G2 by (apply Nat.pow_nonzero; lia); lia | lia]).
  destruct (mapping_point_ok x y (w / 2 ^ oi) (h / 2 ^ oi) w h) as (px & py & EM & PX & PY & _); auto; try (unfold two64; lia).
  rewrite EM; cbn [bind]; rewrite EP; cbn [bind]; exists ((px, py) :: points); split; auto.
Qed.
Print Assumptions C58_points.

(** the number of octaves asked for, not the number generated, bounds the loop: with an octave below 20 x 20 the vector
    of octaves is read beyond its end *)
Theorem C58_octaves dog resample order owner input w h f n levels sigma k contrast edge i :
  dog_shape dog n levels sigma k w h -> resample_shape resample n w h -> Repr input w h f -> (forall l, Permutation (order l) l) ->
  i < n -> w / 2 ^ i < 20 \/ h / 2 ^ i < 20 ->
  get_potential_keypoint dog resample order owner input n levels sigma k contrast edge = UB.
Proof.
  intros D RS R P I S; apply (get_potential_keypoint_UB _ _ _ _ _ w h); auto using dog_shape_keeps, resample_shape_ok; [exists f; auto | left; eauto].
Qed.
Print Assumptions C58_octaves.

(** the number of scales minus two wraps around: with fewer than three scale levels the octave is read beyond its end *)
Theorem C58_levels dog resample order owner input w h f n levels sigma k contrast edge :
  dog_shape dog n levels sigma k w h -> resample_shape resample n w h -> Repr input w h f -> (forall l, Permutation (order l) l) ->
  0 < n -> 20 <= w -> 20 <= h -> levels < 3 ->
  get_potential_keypoint dog resample order owner input n levels sigma k contrast edge = UB.
Proof.
  intros D RS R P N W H L; apply (get_potential_keypoint_UB _ _ _ _ _ w h); auto using dog_shape_keeps, resample_shape_ok; exists f; auto.
Qed.
Print Assumptions C58_levels.

Example C58_case : (forall i, i < 4 -> 20 <= 160 / 2 ^ i /\ 20 <= 200 / 2 ^ i) /\ 3 <= 5 /\ ~ (20 <= 159 / 2 ^ 3).
Proof. split; [intros [|[|[|[|]]]] H; try lia; vm_compute; lia | split; [lia | vm_compute; lia]]. Qed.

(** ** C86: refinement; derivatives of the patch at its centre *)
Definition d_x (f : nat -> nat -> R) : R := ((f 2%nat 1%nat - f 0%nat 1%nat) / 2)%R.
Definition d_y (f : nat -> nat -> R) : R := ((f 1%nat 2%nat - f 1%nat 0%nat) / 2)%R.
Definition d_xx (f : nat -> nat -> R) : R := (f 2%nat 1%nat + f 0%nat 1%nat - 2 * f 1%nat 1%nat)%R.
Definition d_yy (f : nat -> nat -> R) : R := (f 1%nat 2%nat + f 1%nat 0%nat - 2 * f 1%nat 1%nat)%R.
Definition d_xy (f : nat -> nat -> R) : R := ((f 2%nat 2%nat - f 2%nat 0%nat - f 0%nat 2%nat + f 0%nat 0%nat) / 4)%R.

(** the refined location is the stationary point of the quadratic approximation exactly when the two second derivatives
    agree or the gradient is zero *)
Theorem C86_refinement_partial im f x y : Repr im 3 3 f -> (d_xx f * d_yy f - d_xy f * d_xy f <> 0)%R ->
  exists ox oy, keypoint_refinement im (x, y) = Ok (Some (INR x + ox, INR y + oy)%R) /\
    ((d_xx f * ox + d_xy f * oy = - d_x f /\ d_xy f * ox + d_yy f * oy = - d_y f)%R <->
     (d_xx f = d_yy f \/ (d_x f = 0 /\ d_y f = 0))%R).
Proof.
  intros R N; exists (fst (step f)), (snd (step f)); rewrite (keypoint_refinement_ok im f x y R); unfold refined.
  destruct (Req_EM_T (hdet f) 0) as [E|E]; [elim N; exact E|]; split; auto; apply (step_newton f E).
Qed.
Print Assumptions C86_refinement_partial.

(** without a stationary point there is no location *)
Theorem C86_singular im f x y : Repr im 3 3 f -> (d_xx f * d_yy f - d_xy f * d_xy f = 0)%R -> keypoint_refinement im (x, y) = Ok None.
Proof.
  intros R N; rewrite (keypoint_refinement_ok im f x y R); unfold refined; destruct (Req_EM_T (hdet f) 0) as [E|E]; auto; elim E; exact N.
Qed.
Print Assumptions C86_singular.

(** a quadratic with its extremum at (x + u, y + v) *)
Definition quadratic (c a b e u v : R) (i j : nat) : R :=
  (c + a * (INR i - 1 - u) * (INR i - 1 - u) + b * (INR j - 1 - v) * (INR j - 1 - v) + e * (INR i - 1 - u) * (INR j - 1 - v))%R.
Lemma quadratic_derivatives c a b e u v : let f := quadratic c a b e u v in
  (d_x f = - 2 * a * u - e * v /\ d_y f = - 2 * b * v - e * u /\ d_xx f = 2 * a /\ d_yy f = 2 * b /\ d_xy f = e)%R.
Proof. cbv zeta; unfold d_x, d_y, d_xx, d_yy, d_xy, quadratic; cbn [INR]; repeat split; field. Qed.

(** its extremum is found when both squares have the same coefficient *)
Theorem C86_isotropic im c a e u v x y : Repr im 3 3 (quadratic c a a e u v) -> (4 * a * a <> e * e)%R ->
  keypoint_refinement im (x, y) = Ok (Some (INR x + u, INR y + v)%R).
Proof.
  intros R N; pose proof (quadratic_derivatives c a a e u v) as (DX & DY & DXX & DYY & DXY).
  destruct (C86_refinement_partial im _ x y R) as (ox & oy & E & H); [rewrite DXX, DYY, DXY; lra|]; rewrite E.
  destruct (proj2 H) as (H1 & H2); [left; congruence|]; rewrite DXX, DYY, DXY, DX, DY in *.
  assert (Z1 : (2 * a * (ox - u) + e * (oy - v) = 0)%R) by lra; assert (Z2 : (e * (ox - u) + 2 * a * (oy - v) = 0)%R) by lra.
  assert (M : ((4 * a * a - e * e) * (ox - u) = 0)%R) by (transitivity (2 * a * (2 * a * (ox - u) + e * (oy - v)) - e * (e * (ox - u) + 2 * a * (oy - v)))%R; [ring | rewrite Z1, Z2; ring]).
  assert (M' : ((4 * a * a - e * e) * (oy - v) = 0)%R) by (transitivity (2 * a * (e * (ox - u) + 2 * a * (oy - v)) - e * (2 * a * (ox - u) + e * (oy - v)))%R; [ring | rewrite Z1, Z2; ring]).
  apply Rmult_integral in M; apply Rmult_integral in M'; assert (ox = u) as -> by lra; assert (oy = v) as -> by lra; reflexivity.
Qed.
Print Assumptions C86_isotropic.

Example C86_isotropic_case : keypoint_refinement (img 3 3 (quadratic 10 (-1) (-1) (/ 2) (/ 4) (/ 8))) (7, 9) = Ok (Some (INR 7 + / 4, INR 9 + / 8)%R).
Proof. apply (C86_isotropic _ 10 (-1) (/ 2) (/ 4) (/ 8)); [apply img_Repr | lra]. Qed.

(** the maximum of an elongated quadratic is at 1/4 to the right; the refined location is at 1/8 *)
Theorem C86_elongated_refuted : exists im u v x y, Repr im 3 3 (quadratic 10 (-1) (-2) 0 u v) /\
  exists rx ry, keypoint_refinement im (x, y) = Ok (Some (rx, ry)) /\ (rx <> INR x + u)%R.
Proof.
  exists (img 3 3 (quadratic 10 (-1) (-2) 0 (/ 4) 0)), (/ 4)%R, 0%R, 1, 1; split; [apply img_Repr|].
  pose proof (quadratic_derivatives 10 (-1) (-2) 0 (/ 4) 0) as (DX & DY & DXX & DYY & DXY).
  destruct (C86_refinement_partial _ _ 1 1 (img_Repr 3 3 (quadratic 10 (-1) (-2) 0 (/ 4) 0))) as (ox & oy & E & H); [rewrite DXX, DYY, DXY; lra|].
  exists (INR 1 + ox)%R, (INR 1 + oy)%R; split; auto; intros C; assert (ox = / 4)%R as -> by lra.
  clear H; rewrite (keypoint_refinement_ok _ _ 1 1 (img_Repr 3 3 (quadratic 10 (-1) (-2) 0 (/ 4) 0))) in E; unfold refined in E.
  destruct (Req_EM_T _ 0); [discriminate|]; injection E as E _; revert E; unfold step; cbn [fst].
  change (gx ?f) with (d_x f); change (gy ?f) with (d_y f); unfold hdet; change (hxx ?f) with (d_xx f); change (hyy ?f) with (d_yy f); change (hxy ?f) with (d_xy f).
  rewrite DX, DY, DXX, DYY, DXY; intros E; lra.
Qed.
Print Assumptions C86_elongated_refuted.

(** ** C87: filtering *)
(** kept exactly when the value exceeds the threshold and the ratio is below the edge threshold (a determinant of zero:
    only when the trace is zero too, the quotient is not a number) *)
Theorem C87_filter im f contrast edge : Repr im 3 3 f -> exists b, keypoint_filtering im contrast edge = Ok b /\
  (b = true <-> Rlt contrast (f 1 1) /\
     (let trace := d_xx f + d_yy f in let det := d_xx f * d_yy f - d_xy f * d_xy f in
      (det <> 0 /\ trace * trace / det < edge) \/ (det = 0 /\ trace = 0))%R).
Proof. apply keypoint_filtering_ok. Qed.
Print Assumptions C87_filter.

(** a positive determinant and a ratio below (r+1)^2/r mean that the principal curvatures have the same sign and a quotient
    below r; this needs the determinant to be positive *)
Theorem C87_saddle_refuted : exists im f, Repr im 3 3 f /\ keypoint_filtering im 8 12.1 = Ok true /\
  (d_xx f * d_yy f - d_xy f * d_xy f < 0)%R.
Proof.
  exists (img 3 3 (quadratic 9 1 (-1) 0 0 0)), (quadratic 9 1 (-1) 0 0 0); split; [apply img_Repr|].
  pose proof (quadratic_derivatives 9 1 (-1) 0 0 0) as (DX & DY & DXX & DYY & DXY).
  destruct (C87_filter _ _ 8 12.1 (img_Repr 3 3 (quadratic 9 1 (-1) 0 0 0))) as (b & E & H); cbv zeta in H; rewrite DXX, DYY, DXY in *; split; [|lra].
  rewrite E; f_equal; apply H; split; [unfold quadratic; cbn [INR]; lra|]; left; split; lra.
Qed.
Print Assumptions C87_saddle_refuted.

(** the extremum test takes the absolute value, the filter does not: no local minimum with a negative value passes *)
Theorem C87_minimum_refuted : exists im1 im2 im3 f, Repr im2 3 3 f /\ is_it_extremum im1 im2 im3 8 = Ok true /\
  (d_xx f * d_yy f - d_xy f * d_xy f > 0)%R /\ ((d_xx f + d_yy f) * (d_xx f + d_yy f) / (d_xx f * d_yy f - d_xy f * d_xy f) < 12.1)%R /\
  keypoint_filtering im2 8 12.1 = Ok false.
Proof.
  set (f := fun x y : nat => if (x =? 1) && (y =? 1) then (-9)%R else 0%R).
  exists (img 3 3 (fun _ _ => 0%R)), (img 3 3 f), (img 3 3 (fun _ _ => 0%R)), f; split; [apply img_Repr|].
  split; [|split; [|split]].
  - destruct (C57_test _ _ _ (fun k => match k with 1 => f | _ => fun _ _ => 0%R end) 8 (img_Repr 3 3 (fun _ _ => 0%R)) (img_Repr 3 3 f) (img_Repr 3 3 (fun _ _ => 0%R))) as (b & E & H).
    rewrite E; f_equal; apply H; unfold f; cbn; rewrite Rabs_left by lra; split; [lra|]; right; intros k x y K X Y N.
    destruct k as [|[|[|]]]; try lia; try lra; destruct ((x =? 1) && (y =? 1)) eqn:B; [lia | lra].
  - unfold d_xx, d_yy, d_xy, f; cbn; lra.
  - unfold d_xx, d_yy, d_xy, f; cbn; lra.
  - destruct (C87_filter _ _ 8 12.1 (img_Repr 3 3 f)) as (b & E & H); rewrite E; f_equal; destruct b; auto; exfalso.
    destruct (proj1 H eq_refl) as (C & _); unfold f in C; cbn in C; lra.
Qed.
Print Assumptions C87_minimum_refuted.

(** ** C88: local extrema of three images *)
(** pixel (x, y) of the second image exceeds the threshold and all its 26 neighbours, or is less than all of them *)
Definition local_extremum (F : nat -> nat -> nat -> R) (contrast : R) (x y : nat) : Prop :=
  Rlt contrast (Rabs (F 1 x y)) /\
  ((forall k x' y', k < 3 -> x <= S x' -> x' <= S x -> y <= S y' -> y' <= S y -> ~ (k = 1 /\ x' = x /\ y' = y) -> Rlt (F k x' y') (F 1 x y)) \/
   (forall k x' y', k < 3 -> x <= S x' -> x' <= S x -> y <= S y' -> y' <= S y -> ~ (k = 1 /\ x' = x /\ y' = y) -> Rlt (F 1 x y) (F k x' y'))).

(** one thread: exactly the local extrema that are not on the border, row by row, each with the refinement of its patch *)
Theorem C88_extrema owner im1 im2 im3 w h F oi si contrast edge :
  Repr im1 w h (F 0) -> Repr im2 w h (F 1) -> Repr im3 w h (F 2) -> 1 <= w -> 1 <= h ->
  (Z.of_nat w <= 2 ^ 63)%Z -> (Z.of_nat h <= 2 ^ 63)%Z -> (forall p q, owner p = owner q) ->
  exists pixels, StronglySorted (fun p q => fst p < fst q \/ (fst p = fst q /\ snd p < snd q)) pixels /\
    (forall x y, In (y, x) pixels <-> (1 <= x /\ S x < w /\ 1 <= y /\ S y < h) /\ local_extremum F contrast x y) /\
    exists locations, find_local_extrema owner im1 im2 im3 oi si contrast edge false = Ok (map (fun l => (oi, si, l)) locations) /\
      Forall2 (fun p l => exists sub, subimage 0%R im2 [3; 3] [snd p; fst p] 0%R = Ok sub /\ keypoint_refinement sub (snd p, fst p) = Ok l) pixels locations.
Proof.
  intros R1 R2 R3 W H BW BH OW.
  destruct (find_local_extrema_eq owner im1 im2 im3 w h F oi si contrast edge false R1 R2 R3) as (px & S & I & E); auto.
  exists px; split; [exact S|]; split.
  - intros x y; rewrite I; unfold keypoint_at; split; [intros (A & B & _); auto | intros (A & B); split; auto; split; [exact B | discriminate]].
  - exists (map (fun p => refined (patch (F 1) (snd p) (fst p)) (snd p) (fst p)) px); split.
    + rewrite E, (proj2 (one_owner_spec owner px)) by auto; rewrite map_map; reflexivity.
    + assert (A : forall y x, In (y, x) px -> 1 <= x /\ Datatypes.S x < w /\ 1 <= y /\ Datatypes.S y < h) by (intros y x J; apply I in J; tauto).
      clear - A R2 BW BH; induction px as [|[y x] px IH]; cbn [map]; constructor; [|apply IH; intros; apply A; cbn; auto].
      destruct (A y x) as (X0 & X1 & Y0 & Y1); [cbn; auto|]; cbn [fst snd].
      destruct (subimage_patch im2 w h (F 1) x y R2) as (o & Eo & Ro); auto; exists o; split; auto; apply keypoint_refinement_ok; auto.
Qed.
Print Assumptions C88_extrema.

(** two threads that both find a keypoint append to the same vector without synchronisation *)
Theorem C88_race owner im1 im2 im3 w h F oi si contrast edge x y x' y' :
  Repr im1 w h (F 0) -> Repr im2 w h (F 1) -> Repr im3 w h (F 2) -> (Z.of_nat w <= 2 ^ 63)%Z -> (Z.of_nat h <= 2 ^ 63)%Z ->
  (1 <= x /\ S x < w /\ 1 <= y /\ S y < h) -> (1 <= x' /\ S x' < w /\ 1 <= y' /\ S y' < h) ->
  local_extremum F contrast x y -> local_extremum F contrast x' y' -> owner (y, x) <> owner (y', x') ->
  find_local_extrema owner im1 im2 im3 oi si contrast edge false = UB.
Proof.
  intros R1 R2 R3 BW BH I I' L L' N.
  destruct (find_local_extrema_eq owner im1 im2 im3 w h F oi si contrast edge false R1 R2 R3) as (px & _ & J & E); auto; try lia.
  rewrite E; destruct (one_owner owner px) eqn:O; auto; exfalso; apply N, (proj1 (one_owner_spec owner px) O); apply J; split; auto; split; auto; discriminate.
Qed.
Print Assumptions C88_race.

Definition two_spots (k x y : nat) : R := if (k =? 1) && (y =? 1) && ((x =? 1) || (x =? 3)) then 9%R else 0%R.
Lemma two_spots_extrema x : x = 1 \/ x = 3 -> local_extremum two_spots 8 x 1.
Proof.
  intros X; unfold local_extremum.
  assert (E : two_spots 1 x 1 = 9%R) by (destruct X as [-> | ->]; reflexivity); rewrite E, Rabs_pos_eq by lra; split; [lra|]; left.
  intros k x' y' K A1 A2 A3 A4 N; unfold two_spots; destruct (_ && _) eqn:B; [lia | lra].
Qed.

(** the loop is divided among the threads of the process: [owner] is the column here *)
Theorem C88_parallel_refuted : exists owner im1 im2 im3, Repr im1 5 3 (two_spots 0) /\ Repr im2 5 3 (two_spots 1) /\ Repr im3 5 3 (two_spots 2) /\
  find_local_extrema owner im1 im2 im3 0 0 8 12.1 false = UB.
Proof.
  exists snd, (img 5 3 (two_spots 0)), (img 5 3 (two_spots 1)), (img 5 3 (two_spots 2)).
  do 3 (split; [apply img_Repr|]); apply (C88_race snd _ _ _ 5 3 two_spots 0 0 8 12.1 1 1 3 1); try apply img_Repr; try (apply two_spots_extrema; auto); cbn; lia.
Qed.
Print Assumptions C88_parallel_refuted.

Example C88_case : exists l1 l2, find_local_extrema (fun _ => 0) (img 5 3 (two_spots 0)) (img 5 3 (two_spots 1)) (img 5 3 (two_spots 2)) 0 0 8 12.1 false =
  Ok [(0, 0, l1); (0, 0, l2)].
Proof.
  destruct (C88_extrema (fun _ => 0) _ _ _ 5 3 two_spots 0 0 8 12.1 (img_Repr 5 3 (two_spots 0)) (img_Repr 5 3 (two_spots 1)) (img_Repr 5 3 (two_spots 2)))
    as (px & S & I & l & E & F); try lia; auto.
  assert (I1 : In (1, 1) px) by (apply I; split; [lia | apply two_spots_extrema; auto]).
  assert (I3 : In (1, 3) px) by (apply I; split; [lia | apply two_spots_extrema; auto]).
  assert (I2 : ~ In (1, 2) px).
  { intros C; apply I in C as (_ & C & _); unfold two_spots in C; cbn in C; rewrite Rabs_R0 in C; lra. }
  assert (O : forall y x, In (y, x) px -> y = 1 /\ (x = 1 \/ x = 3)).
  { intros y x J; pose proof J as J'; apply I in J' as (J' & _); assert (y = 1) as -> by lia; split; auto.
    destruct (Nat.eq_dec x 2) as [->|]; [tauto | lia]. }
  assert (P : px = [(1, 1); (1, 3)]).
  { destruct px as [|[y1 x1] px]; [destruct I1|]; inversion S as [|? ? S1 A1]; subst; rewrite Forall_forall in A1.
    destruct (O y1 x1) as (-> & X1); [cbn; auto|]; destruct X1 as [-> | ->].
    2:{ destruct I1 as [C|C]; [discriminate | apply A1 in C; cbn in C; lia]. }
    destruct I3 as [C|I3]; [discriminate|]; destruct px as [|[y2 x2] px]; [destruct I3|].
    destruct (O y2 x2) as (-> & X2); [cbn; auto|]; pose proof (A1 (1, x2) ltac:(cbn; auto)) as Q; cbn in Q; assert (x2 = 3) as -> by lia.
    destruct px as [|[y3 x3] px]; auto; destruct (O y3 x3) as (-> & X3); [cbn; auto|].
    inversion S1 as [|? ? S2 A2]; subst; rewrite Forall_forall in A2; specialize (A2 (1, x3) ltac:(cbn; auto)); cbn in A2; lia. }
  rewrite P in F; inversion F as [|? l1 ? l' F1 F']; subst; inversion F' as [|? l2 ? l'' F2 F'']; subst; inversion F''; subst; exists l1, l2; exact E.
Qed.

(** ** C89: mapping *)
Theorem C89_mapping x y iw ih tw th : (0 <= x < INR iw)%R -> (0 <= y < INR ih)%R -> 0 < tw -> 0 < th -> fits tw -> fits th ->
  exists px py, mapping_point (Some (x, y)) iw ih tw th = Ok (px, py) /\ px < tw /\ py < th /\
    (INR px <= x * INR tw / INR iw < INR px + 1)%R /\ (INR py <= y * INR th / INR ih < INR py + 1)%R.
Proof. apply mapping_point_ok. Qed.
Print Assumptions C89_mapping.
Example C89_case : exists px py, mapping_point (Some (3, 4)%R) 5 10 10 15 = Ok (px, py) /\ px = 6 /\ py = 6.
Proof.
  destruct (C89_mapping 3 4 5 10 10 15) as (px & py & E & X & Y & (LX & UX) & (LY & UY)); try (cbn; lra); try lia; try (unfold fits, two64; lia).
  exists px, py; split; auto; rewrite !INR_IZR_INZ in *; replace (Z.of_nat 5) with 5%Z in * by lia; replace (Z.of_nat 10) with 10%Z in * by lia; replace (Z.of_nat 15) with 15%Z in * by lia.
  assert (Z.of_nat px < 7)%Z by (apply lt_IZR; lra); assert (5 < Z.of_nat px)%Z by (apply lt_IZR; lra).
  assert (Z.of_nat py < 7)%Z by (apply lt_IZR; lra); assert (5 < Z.of_nat py)%Z by (apply lt_IZR; lra); lia.
Qed.

(** a location left of the image by a pixel of the target or more, or one that is not a number, is converted without a check *)
Theorem C89_negative x y iw ih tw th : 0 < iw -> 0 < tw -> (x * INR tw <= - INR iw)%R -> mapping_point (Some (x, y)) iw ih tw th = UB.
Proof. apply mapping_point_UB. Qed.
Print Assumptions C89_negative.

(** an accepted extremum whose determinant is zero *)
Definition flat_ridge (k x y : nat) : R :=
  if (k =? 1) && (x =? 1) && (y =? 1) then 9%R else if (k =? 1) && (((x =? 2) && (y =? 0)) || ((x =? 0) && (y =? 2))) then (-36)%R else 0%R.
Theorem C89_singular_refuted : exists im1 im2 im3, Repr im1 3 3 (flat_ridge 0) /\ Repr im2 3 3 (flat_ridge 1) /\ Repr im3 3 3 (flat_ridge 2) /\
  find_local_extrema (fun _ => 0) im1 im2 im3 0 0 8 12.1 false = Ok [(0, 0, None)] /\ forall iw ih tw th, mapping_point None iw ih tw th = UB.
Proof.
  exists (img 3 3 (flat_ridge 0)), (img 3 3 (flat_ridge 1)), (img 3 3 (flat_ridge 2)); do 3 (split; [apply img_Repr|]); split; [|reflexivity].
  destruct (C88_extrema (fun _ => 0) _ _ _ 3 3 flat_ridge 0 0 8 12.1 (img_Repr 3 3 (flat_ridge 0)) (img_Repr 3 3 (flat_ridge 1)) (img_Repr 3 3 (flat_ridge 2)))
    as (px & S & I & l & E & F); try lia; auto.
  assert (I1 : In (1, 1) px).
  { apply I; split; [lia|]; unfold local_extremum; change (flat_ridge 1 1 1) with 9%R; rewrite Rabs_pos_eq by lra; split; [lra|]; left.
    intros k x y K A1 A2 A3 A4 N; unfold flat_ridge; destruct ((k =? 1) && (x =? 1) && (y =? 1)) eqn:B; [exfalso; clear - N B; lia|].
    destruct ((k =? 1) && ((x =? 2) && (y =? 0) || (x =? 0) && (y =? 2))); lra. }
  assert (O : forall y x, In (y, x) px -> y = 1 /\ x = 1) by (intros y x J; apply I in J; lia).
  assert (P : px = [(1, 1)]).
  { destruct px as [|[y1 x1] px]; [destruct I1|]; destruct (O y1 x1) as (-> & ->); [cbn; auto|]; destruct px as [|[y2 x2] px]; auto.
    destruct (O y2 x2) as (-> & ->); [cbn; auto|]; inversion S as [|? ? S1 A1]; subst; apply Forall_inv in A1; cbn in A1; lia. }
  rewrite P in F; inversion F as [|? l1 ? l' (sub & E1 & E2) F']; subst; inversion F'; subst; rewrite E; cbn [map fst snd] in *.
  destruct (subimage_patch (img 3 3 (flat_ridge 1)) 3 3 (flat_ridge 1) 1 1 (img_Repr 3 3 (flat_ridge 1))) as (o & Eo & Ro); try lia.
  rewrite Eo in E1; injection E1 as <-; rewrite (C86_singular o _ 1 1 Ro) in E2; [injection E2 as <-; reflexivity|].
  unfold d_xx, d_yy, d_xy, patch, flat_ridge; cbn; lra.
Qed.
Print Assumptions C89_singular_refuted.

(** ** C90: gradient of a 3 x 3 patch in polar coordinates *)
Theorem C90_orientation im f : Repr im 3 3 f -> exists m o, compute_each_pixel_orientation im = Ok (m, o) /\
  (0 <= m /\ 0 < o <= 360 /\
   f 2%nat 1%nat - f 0%nat 1%nat = m * cos ((o - 180) * PI / 180) /\ f 1%nat 2%nat - f 1%nat 0%nat = m * sin ((o - 180) * PI / 180) /\
   m * m = (f 2%nat 1%nat - f 0%nat 1%nat) * (f 2%nat 1%nat - f 0%nat 1%nat) + (f 1%nat 2%nat - f 1%nat 0%nat) * (f 1%nat 2%nat - f 1%nat 0%nat))%R.
Proof.
  intros R; rewrite (pixel_orientation_ok im f R); eexists _, _; split; [reflexivity|].
  pose proof (polar_of (f 2 1 - f 0 1) (f 1 2 - f 1 0)) as (M & O & X & Y & _); unfold mag_of, ang_of; do 4 (split; [auto|]); apply sqrt_sqrt; nra.
Qed.
Print Assumptions C90_orientation.

(** no other pair has these properties, except that the angle of a zero gradient is 180 *)
Theorem C90_unique im f m o m' o' : Repr im 3 3 f -> compute_each_pixel_orientation im = Ok (m, o) ->
  (0 <= m' /\ 0 < o' <= 360 /\ f 2%nat 1%nat - f 0%nat 1%nat = m' * cos ((o' - 180) * PI / 180) /\
   f 1%nat 2%nat - f 1%nat 0%nat = m' * sin ((o' - 180) * PI / 180) /\ (m' = 0 -> o' = 180))%R -> m' = m /\ o' = o.
Proof.
  intros R E P; rewrite (pixel_orientation_ok im f R) in E; injection E as <- <-.
  apply (polar_unique m' o' _ _ _ _ P (polar_of _ _)).
Qed.
Print Assumptions C90_unique.

Theorem C90_extents im : dims im <> [3; 3] -> compute_each_pixel_orientation im = Throw RuntimeError.
Proof.
  intros N; unfold compute_each_pixel_orientation, get_dimensionality; destruct (Nat.eqb_spec (length (dims im)) 2) as [E|E]; [|reflexivity]; cbn [negb].
  unfold get_width, get_height, get_dimensionality; destruct (dims im) as [|w [|h [|x l]]] eqn:D; cbn in E; try discriminate; cbn.
  destruct (Nat.eqb_spec w 3) as [->|]; cbn; auto; destruct (Nat.eqb_spec h 3) as [->|]; cbn; auto; elim N; auto.
Qed.
Print Assumptions C90_extents.

(** brighter to the right: 180; brighter below: 270; the sector just below 0 is closed at 360 *)
Example C90_case_right : compute_each_pixel_orientation (img 3 3 (fun x _ => INR x)) = Ok (2, 180)%R.
Proof.
  destruct (C90_orientation _ _ (img_Repr 3 3 (fun x _ => INR x))) as (m & o & E & _); rewrite E.
  destruct (C90_unique _ _ m o 2 180 (img_Repr 3 3 (fun x _ => INR x)) E) as (-> & ->); auto.
  cbn [INR]; replace ((180 - 180) * PI / 180)%R with 0%R by field; rewrite cos_0, sin_0; lra.
Qed.
Example C90_case_left : compute_each_pixel_orientation (img 3 3 (fun x _ => - INR x)%R) = Ok (2, 360)%R.
Proof.
  destruct (C90_orientation _ _ (img_Repr 3 3 (fun x _ => - INR x)%R)) as (m & o & E & _); rewrite E.
  destruct (C90_unique _ _ m o 2 360 (img_Repr 3 3 (fun x _ => - INR x)%R) E) as (-> & ->); auto.
  cbn [INR]; replace ((360 - 180) * PI / 180)%R with PI by field; rewrite cos_PI, sin_PI; lra.
Qed.

(** ** C91: histogram of orientations in bins of 10 degrees *)
(** (m, o) are the polar coordinates (o shifted by 180) of the gradient at (x, y) of the image continued by zeros *)
Definition gradient_polar (f : nat -> nat -> R) (w h x y : nat) (m o : R) : Prop :=
  (0 <= m /\ 0 < o <= 360 /\
   zext f w h (Z.of_nat x + 1) (Z.of_nat y) - zext f w h (Z.of_nat x - 1) (Z.of_nat y) = m * cos ((o - 180) * PI / 180) /\
   zext f w h (Z.of_nat x) (Z.of_nat y + 1) - zext f w h (Z.of_nat x) (Z.of_nat y - 1) = m * sin ((o - 180) * PI / 180) /\ (m = 0 -> o = 180))%R.

Definition in_sector (width : R) (b : nat) (o : R) : bool := rleb (INR b * width) o && rltb o (INR (S b) * width).
Lemma in_sector_bin width b o : (0 < width)%R -> (0 <= o)%R -> in_sector width b o = (b =? bin_of width o).
Proof.
  intros W O; apply eq_true_iff_eq; unfold in_sector; rewrite andb_true_iff, rleb_spec, rltb_spec, Nat.eqb_eq.
  rewrite <- (bin_of_spec width o b W O); split; congruence.
Qed.

(** for a point at least block_size away from the left and upper border: bin b holds the sum of the magnitudes of the
    pixels of the window that are in the image and whose angle is in [10 b, 10 b + 10) *)
Theorem C91_histogram im w h f px py r : Repr im w h f -> (Z.of_nat w <= 2 ^ 63)%Z -> (Z.of_nat h <= 2 ^ 63)%Z ->
  r <= px -> r <= py -> fits (px + r) -> fits (py + r) ->
  exists (m o : nat -> nat -> R) hist, (forall x y, gradient_polar f w h x y (m x y) (o x y)) /\
    get_orientation_histogram im (px, py) r = Ok hist /\ length hist = 37 /\
    forall b, b < 37 -> nth b hist 0%R = rsum (fun y => rsum (fun x =>
      if (x <? w) && (y <? h) && in_sector 10 b (o x y) then m x y else 0%R) (seq (px - r) (2 * r + 1))) (seq (py - r) (2 * r + 1)).
Proof.
  intros R W H RX RY FX FY; exists (mag f w h), (ang f w h).
  destruct (orientation_histogram_ok im w h f px py r R W H RX RY FX FY) as (hist & E & L & N); exists hist.
  split; [intros; apply mag_ang_polar|]; split; auto; split; auto; intros b _; rewrite N; unfold window.
  transitivity (rsum (fun p => if (snd p <? w) && (fst p <? h) && in_sector 10 b (ang f w h (snd p) (fst p)) then mag f w h (snd p) (fst p) else 0%R)
    (pairs (seq (py - r) (2 * r + 1)) (fun _ => seq (px - r) (2 * r + 1)))).
  - apply rsum_ext; intros [y x] _; cbn [fst snd]; pose proof (mag_ang_polar f w h x y) as (_ & A & _).
    rewrite in_sector_bin by lra; destruct ((x <? w) && (y <? h)); auto.
  - rewrite (bsum_pairs 0%R Rplus r0r rC rA); reflexivity.
Qed.
Print Assumptions C91_histogram.

(** nearer to the left or upper border the first index wraps around, the loop has no iteration and all bins are zero *)
Theorem C91_border im w h f px py r : Repr im w h f -> px < r \/ py < r -> fits (px + r) -> fits (py + r) -> fits (2 * r + 1) ->
  get_orientation_histogram im (px, py) r = Ok (repeat 0%R 37).
Proof. apply orientation_histogram_border. Qed.
Print Assumptions C91_border.

(** a pixel of the window with a gradient that is in no bin: (2, 2), block size 3, in the image with the pixel values x *)
Theorem C91_border_refuted : exists im w h f px py r x y m o hist, Repr im w h f /\ get_orientation_histogram im (px, py) r = Ok hist /\
  x < w /\ y < h /\ px <= x + r /\ x <= px + r /\ py <= y + r /\ y <= py + r /\
  gradient_polar f w h x y m o /\ (0 < m)%R /\ forall b, nth b hist 0%R = 0%R.
Proof.
  exists (img 10 10 (fun x _ => INR x)), 10, 10, (fun x _ => INR x), 2, 2, 3, 2, 2, 2%R, 180%R, (repeat 0%R 37).
  split; [apply img_Repr|]; split; [apply (C91_border _ 10 10 _ 2 2 3 (img_Repr 10 10 (fun x _ => INR x))); unfold fits, two64; lia|].
  do 6 (split; [lia|]); split; [|split; [lra | intros; apply nth_repeat0]].
  unfold gradient_polar, zext; replace ((180 - 180) * PI / 180)%R with 0%R by field; rewrite cos_0, sin_0.
  repeat match goal with |- context [if ?b then _ else _] => replace b with true by lia end.
  rewrite !INR_IZR_INZ, !Z2Nat.id by lia; rewrite plus_IZR, minus_IZR; lra.
Qed.
Print Assumptions C91_border_refuted.

(** the magnitudes in the bins add up to those of the window *)
Theorem C91_total im w h f px py r : Repr im w h f -> (Z.of_nat w <= 2 ^ 63)%Z -> (Z.of_nat h <= 2 ^ 63)%Z ->
  r <= px -> r <= py -> fits (px + r) -> fits (py + r) ->
  exists (m o : nat -> nat -> R) hist, (forall x y, gradient_polar f w h x y (m x y) (o x y)) /\
    get_orientation_histogram im (px, py) r = Ok hist /\
    rsum (fun b => nth b hist 0%R) (seq 0 37) = rsum (fun y => rsum (fun x => if (x <? w) && (y <? h) then m x y else 0%R) (seq (px - r) (2 * r + 1))) (seq (py - r) (2 * r + 1)).
Proof.
  intros R W H RX RY FX FY; destruct (C91_histogram im w h f px py r R W H RX RY FX FY) as (m & o & hist & P & E & L & N).
  exists m, o, hist; split; auto; split; auto.
  transitivity (rsum (fun b => rsum (fun y => rsum (fun x => if (x <? w) && (y <? h) && in_sector 10 b (o x y) then m x y else 0%R) (seq (px - r) (2 * r + 1))) (seq (py - r) (2 * r + 1))) (seq 0 37)).
  { apply rsum_ext; intros b B; apply in_seq in B; apply N; lia. }
  rewrite rsum_swap; apply rsum_ext; intros y _; rewrite rsum_swap; apply rsum_ext; intros x _.
  destruct ((x <? w) && (y <? h)); cbn [andb]; [|apply rsum_zero; auto].
  destruct (P x y) as (_ & A & _).
  assert (B : bin_of 10 (o x y) < 37).
  { destruct (Nat.lt_ge_cases (bin_of 10 (o x y)) 37) as [G|G]; auto.
    pose proof (proj1 (bin_of_spec 10 (o x y) _ ltac:(lra) ltac:(lra)) eq_refl) as (B & _); apply le_INR in G; cbn [INR] in G; lra. }
  rewrite (rsum_single _ 37 (bin_of 10 (o x y))); auto.
  - rewrite in_sector_bin, Nat.eqb_refl by lra; auto.
  - intros b Hb NE; rewrite in_sector_bin by lra; destruct (Nat.eqb_spec b (bin_of 10 (o x y))); [tauto | auto].
Qed.
Print Assumptions C91_total.

Example C91_case : exists hist, get_orientation_histogram (img 10 10 (fun x _ => INR x)) (5, 5) 3 = Ok hist /\ length hist = 37.
Proof.
  destruct (C91_histogram _ 10 10 _ 5 5 3 (img_Repr 10 10 (fun x _ => INR x))) as (m & o & hist & _ & E & L & _); try lia; try (unfold fits, two64; lia); eauto.
Qed.

(** ** C92: the descriptor of a keypoint *)
(** angle in the sector [45 b, 45 b + 45), the last one closed *)
Definition in_octant (b : nat) (o : R) : bool := rleb (INR b * 45) o && (rltb o (INR (S b) * 45) || (b =? 7)).
Lemma in_octant_bin b o : (0 <= o <= 360)%R -> b < 8 -> in_octant b o = (b =? bin8 o).
Proof.
  intros O B; apply eq_true_iff_eq; unfold in_octant; rewrite andb_true_iff, orb_true_iff, rleb_spec, rltb_spec, !Nat.eqb_eq.
  rewrite <- (bin8_spec o b O B); split; congruence.
Qed.

(** (m, o) of pixel (x, y) of the image; nothing for a pixel outside *)
Definition weight (w h : nat) (m o : nat -> nat -> R) (b x y : nat) : R := if (x <? w) && (y <? h) && in_octant b (o x y) then m x y else 0%R.

(** for a location at least block_size >= 8 away from the left and upper border: 128 numbers; number b of subregion (sx, sy)
    is the sum of the magnitudes of the 4 x 4 pixels of that subregion whose angle is in the sector b.  The 16 x 16 pixels
    start at location - block_size. *)
Theorem C92_descriptor im w h f cx cy r : Repr im w h f -> (Z.of_nat w <= 2 ^ 63)%Z -> (Z.of_nat h <= 2 ^ 63)%Z ->
  fits (cx + r) -> fits (cy + r) -> 8 <= r -> r <= cx -> r <= cy ->
  exists (m o : nat -> nat -> R) d, (forall x y, gradient_polar f w h x y (m x y) (o x y)) /\
    get_keypoint_descriptor im (cx, cy) r = Ok d /\ length d = 128 /\
    forall sx sy b, sx < 4 -> sy < 4 -> b < 8 ->
      nth ((sy * 4 + sx) * 8 + b) d 0%R =
        rsum (fun j => rsum (fun i => weight w h m o b (cx - r + (sx * 4 + i)) (cy - r + (sy * 4 + j))) (seq 0 4)) (seq 0 4).
Proof.
  intros R W H FX FY R8 RX RY; exists (mag f w h), (ang f w h).
  destruct (descriptor_ok im w h f cx cy r R W H FX FY) as (d & E & L & N); auto; [unfold fits in *; lia|].
  exists d; split; [intros; apply mag_ang_polar|]; split; auto; split; auto; intros sx sy b X Y B; rewrite (N sx sy b X Y B).
  unfold grid; rewrite (bsum_pairs 0%R Rplus r0r rC rA); apply rsum_ext; intros j _; apply rsum_ext; intros i _; cbn [fst snd].
  unfold in_bin8, weight, block; rewrite (proj2 (Nat.leb_le r cx)), (proj2 (Nat.leb_le r cy)) by auto; cbn [andb].
  destruct ((_ <? w) && (_ <? h)); cbn [fst snd andb].
  - pose proof (mag_ang_polar f w h (cx - r + (sx * 4 + i)) (cy - r + (sy * 4 + j))) as (_ & A & _); rewrite in_octant_bin by (auto; lra); auto.
  - destruct (b =? bin8 0); auto.
Qed.
Print Assumptions C92_descriptor.

(** a block size below 8 is read beyond its extents *)
Theorem C92_small im w h f cx cy r : Repr im w h f -> (Z.of_nat w <= 2 ^ 63)%Z -> (Z.of_nat h <= 2 ^ 63)%Z ->
  fits (cx + r) -> fits (cy + r) -> r < 8 -> get_keypoint_descriptor im (cx, cy) r = Throw OutOfRange.
Proof. apply descriptor_small. Qed.
Print Assumptions C92_small.

Lemma idx128 k : k = (k / 32 * 4 + (k / 8) mod 4) * 8 + k mod 8.
Proof. pose proof (Nat.div_mod k 8 ltac:(lia)); pose proof (Nat.div_mod (k / 8) 4 ltac:(lia)) as Q; rewrite Nat.div_div in Q by lia; change (8 * 4) with 32 in Q; lia. Qed.

Lemma idx128_bounds k : k < 128 -> k / 32 < 4 /\ (k / 8) mod 4 < 4 /\ k mod 8 < 8.
Proof. intros K; split; [apply Nat.div_lt_upper_bound; lia | split; apply Nat.mod_upper_bound; lia]. Qed.

(** all entries are zero for a location nearer to the left or upper border than the block size *)
Theorem C92_border im w h f cx cy r : Repr im w h f -> (Z.of_nat w <= 2 ^ 63)%Z -> (Z.of_nat h <= 2 ^ 63)%Z ->
  fits (cx + r) -> fits (cy + r) -> fits (2 * r) -> 8 <= r -> cx < r \/ cy < r ->
  exists d, get_keypoint_descriptor im (cx, cy) r = Ok d /\ length d = 128 /\ forall k, k < 128 -> nth k d 0%R = 0%R.
Proof.
  intros R W H FX FY FR R8 B; destruct (descriptor_ok im w h f cx cy r R W H FX FY) as (d & E & L & N); auto; exists d; split; auto; split; auto; intros k K.
  rewrite (idx128 k).
  rewrite N; [|apply Nat.mod_upper_bound; lia | apply Nat.div_lt_upper_bound; lia | apply Nat.mod_upper_bound; lia].
  apply rsum_zero; intros p _; unfold in_bin8, block; replace ((r <=? cx) && (r <=? cy)) with false by lia; cbn [andb fst snd]; destruct (_ =? _); auto.
Qed.
Print Assumptions C92_border.

(** a keypoint at (5, 20) of an image of 64 x 64 with a gradient of magnitude 2 at all pixels around it *)
Theorem C92_border_refuted : exists im f d, Repr im 64 64 f /\ get_keypoint_descriptor im (5, 20) 8 = Ok d /\
  (forall x y, 1 <= x -> x < 63 -> y < 64 -> gradient_polar f 64 64 x y 2 180 \/ (y = 0 \/ y = 63)) /\ forall k, k < 128 -> nth k d 0%R = 0%R.
Proof.
  set (f := fun x _ : nat => INR x).
  destruct (C92_border (img 64 64 f) 64 64 f 5 20 8 (img_Repr 64 64 f)) as (d & E & _ & Z); try lia; try (unfold fits, two64; lia).
  exists (img 64 64 f), f, d; split; [apply img_Repr|]; split; auto; split; auto; intros x y X0 X1 Y.
  destruct (Nat.eq_dec y 0); [auto|]; destruct (Nat.eq_dec y 63); [auto|]; left.
  unfold gradient_polar, zext, f; replace ((180 - 180) * PI / 180)%R with 0%R by field; rewrite cos_0, sin_0.
  repeat match goal with |- context [if ?b then _ else _] => replace b with true by lia end.
  rewrite !INR_IZR_INZ, !Z2Nat.id by lia; rewrite plus_IZR, minus_IZR; lra.
Qed.
Print Assumptions C92_border_refuted.

(** with a block size above 8 only the upper left 16 x 16 pixels of the block are described: the pixels to the right of and
    below the keypoint (and the keypoint itself) have no influence for a block size of 16 *)
Theorem C92_block_refuted : exists im im' f f' d, Repr im 64 64 f /\ Repr im' 64 64 f' /\
  (forall x y, 32 <= x -> f x y <> f' x y) /\
  get_keypoint_descriptor im (31, 31) 16 = Ok d /\ get_keypoint_descriptor im' (31, 31) 16 = Ok d.
Proof.
  set (f := fun x _ : nat => INR x); set (f' := fun x _ : nat => if x <? 32 then INR x else (INR x + 1)%R).
  destruct (C92_descriptor (img 64 64 f) 64 64 f 31 31 16 (img_Repr 64 64 f)) as (m & o & d & P & E & L & N); try lia; try (unfold fits, two64; lia).
  destruct (C92_descriptor (img 64 64 f') 64 64 f' 31 31 16 (img_Repr 64 64 f')) as (m' & o' & d' & P' & E' & L' & N'); try lia; try (unfold fits, two64; lia).
  exists (img 64 64 f), (img 64 64 f'), f, f', d; do 2 (split; [apply img_Repr|]); split; [|split; [exact E|]].
  { clear; intros x y X; unfold f, f'; destruct (Nat.ltb_spec x 32); [lia | lra]. }
  rewrite E'; f_equal; apply (nth_ext _ _ 0%R 0%R); [lia|]; rewrite L'; intros k K.
  rewrite (idx128 k).
  destruct (idx128_bounds k K) as (A & B & C).
  rewrite N, N' by auto; apply rsum_ext; intros j J; apply rsum_ext; intros i I; apply in_seq in J, I.
  set (x := 31 - 16 + ((k / 8) mod 4 * 4 + i)); set (y := 31 - 16 + (k / 32 * 4 + j)).
  assert (X : 15 <= x <= 30) by (unfold x; clear - B I; lia); assert (Y : 15 <= y <= 30) by (unfold y; clear - A J; lia); clearbody x y.
  assert (G : m' x y = m x y /\ o' x y = o x y); [|destruct G as (GM & GO); unfold weight; rewrite GM, GO; auto].
  refine (polar_unique _ _ _ _ _ _ (P' x y) _).
  assert (Q := P x y); unfold gradient_polar in Q; unfold polar.
  replace (zext f' 64 64 (Z.of_nat x + 1) (Z.of_nat y)) with (zext f 64 64 (Z.of_nat x + 1) (Z.of_nat y)); [|unfold zext, f, f'; destruct (_ && _); auto; destruct (Nat.ltb_spec (Z.to_nat (Z.of_nat x + 1)) 32); [auto | clear - X H; lia]].
  replace (zext f' 64 64 (Z.of_nat x - 1) (Z.of_nat y)) with (zext f 64 64 (Z.of_nat x - 1) (Z.of_nat y)); [|unfold zext, f, f'; destruct (_ && _); auto; destruct (Nat.ltb_spec (Z.to_nat (Z.of_nat x - 1)) 32); [auto | clear - X H; lia]].
  replace (zext f' 64 64 (Z.of_nat x) (Z.of_nat y + 1)) with (zext f 64 64 (Z.of_nat x) (Z.of_nat y + 1)); [|unfold zext, f, f'; destruct (_ && _); auto; destruct (Nat.ltb_spec (Z.to_nat (Z.of_nat x)) 32); [auto | clear - X H; lia]].
  replace (zext f' 64 64 (Z.of_nat x) (Z.of_nat y - 1)) with (zext f 64 64 (Z.of_nat x) (Z.of_nat y - 1)); [|unfold zext, f, f'; destruct (_ && _); auto; destruct (Nat.ltb_spec (Z.to_nat (Z.of_nat x)) 32); [auto | clear - X H; lia]].
  exact Q.
Qed.
Print Assumptions C92_block_refuted.

Example C92_case : exists d, get_keypoint_descriptor (img 64 64 (fun x _ => INR x)) (30, 30) 8 = Ok d /\ nth 0 d 0%R = 0%R /\ nth 4 d 0%R = 32%R.
Proof.
  set (f := fun x _ : nat => INR x).
  destruct (C92_descriptor (img 64 64 f) 64 64 f 30 30 8 (img_Repr 64 64 f)) as (m & o & d & P & E & L & N); try lia; try (unfold fits, two64; lia).
  assert (G : forall x y, 22 <= x <= 37 -> 22 <= y <= 37 -> m x y = 2%R /\ o x y = 180%R).
  { intros x y X Y; refine (polar_unique _ _ _ _ _ _ (P x y) _); unfold polar, zext, f.
    replace ((180 - 180) * PI / 180)%R with 0%R by field; rewrite cos_0, sin_0.
    repeat match goal with |- context [if ?b then _ else _] => replace b with true by lia end.
    rewrite !INR_IZR_INZ, !Z2Nat.id by lia; rewrite plus_IZR, minus_IZR; lra. }
  assert (WT : forall b i j, i < 4 -> j < 4 -> weight 64 64 m o b (30 - 8 + (0 * 4 + i)) (30 - 8 + (0 * 4 + j)) = if in_octant b 180 then 2%R else 0%R).
  { intros b i j I J; unfold weight; destruct (G (30 - 8 + (0 * 4 + i)) (30 - 8 + (0 * 4 + j))) as (-> & ->); try lia.
    replace ((30 - 8 + (0 * 4 + i) <? 64) && (30 - 8 + (0 * 4 + j) <? 64)) with true by lia; reflexivity. }
  exists d; split; auto.
  assert (S : forall b, b < 8 -> nth b d 0%R = (16 * if in_octant b 180 then 2 else 0)%R).
  { intros b B; change b with ((0 * 4 + 0) * 8 + b) at 1; rewrite N by lia.
    rewrite (rsum_ext _ (fun _ => 4 * (if in_octant b 180 then 2 else 0))%R).
    - rewrite rsum_const; cbn [length seq INR]; lra.
    - intros j J; apply in_seq in J; rewrite (rsum_ext _ (fun _ => (if in_octant b 180 then 2 else 0))%R); [rewrite rsum_const; cbn [length seq INR]; lra|].
      intros i I; apply in_seq in I; apply WT; lia. }
  assert (O0 : in_octant 0 180 = false) by (rewrite in_octant_bin by (try lra; lia); apply Nat.eqb_neq; intros C; symmetry in C; apply bin8_spec in C; [|lra | lia]; cbn [INR] in C; destruct C as (_ & [C|C]); [lra | lia]).
  assert (O4 : in_octant 4 180 = true) by (rewrite in_octant_bin by (try lra; lia); apply Nat.eqb_eq; symmetry; apply bin8_spec; [lra | lia|]; cbn [INR]; lra).
  rewrite !S, O0, O4 by lia; split; lra.
Qed.
