(** PropScale.v - C99 Lanczos resampling; C58 and C98 with the difference of Gaussians and the resampling of the code. *)
From Coq Require Import Reals Lra ZifyBool ZifyNat Permutation.
From Verif Require Import Base ImageModel ImageFacts IndexModel ImageProofs GeomModel GeomProofs PixelModel PixelProofs
  BigSum RSum ConvModel BmpModel OField FourierProofs SiftModel SiftProofs PropSift GaussModel GaussProofs PropGauss LanczosModel LanczosProofs.
Open Scope nat_scope.
Ltac Zify.zify_post_hook ::= Z.div_mod_to_equations.

(** ** specification *)
(** the windowed sinc function *)
Definition lanczos (a : nat) (t : R) : R :=
  if Req_EM_T t 0 then 1%R else if Rlt_dec (Rabs t) (INR a) then (sin (PI * t) / (PI * t) * (sin (PI * t / INR a) / (PI * t / INR a)))%R else 0%R.
(** where the centre of pixel x of [new] pixels lies among [old] pixels *)
Definition position (old new x : nat) : R := ((INR x + 1 / 2) * INR old / INR new - 1 / 2)%R.
(** the sum of F over the a integers not above p and the a integers above p *)
Definition window (a : nat) (p : R) (F : Z -> R) : R := rsum (fun k => F (up p - 1 - Z.of_nat a + 1 + Z.of_nat k)%Z) (seq 0 (2 * a)).
(** the pixel of n pixels that is nearest to coordinate i *)
Definition nearest (n : nat) (i : Z) : nat := if (i <? 0)%Z then 0 else Nat.min (Z.to_nat i) (n - 1).

(** the mean of the pixels around the position, weighted by the windowed sinc function in both directions *)
Definition interpolated (w h w' h' a : nat) (f : nat -> nat -> R) (x y : nat) : R :=
  let p := position w w' x in let q := position h h' y in
  (window a q (fun j => window a p (fun i => lanczos a (p - IZR i) * lanczos a (q - IZR j) * f (nearest w i) (nearest h j))) /
   (window a p (fun i => lanczos a (p - IZR i)) * window a q (fun j => lanczos a (q - IZR j))))%R.

Lemma position_source old new x : x < new -> position old new x = source old new x.
Proof. intros X; assert (0 < INR new)%R by (apply lt_0_INR; lia); unfold position, source; field; lra. Qed.

Lemma window_near a p F : window a p F = near a p F.
Proof.
  unfold window, near, zrange, Int_part; rewrite (bsum_map 0%R Rplus); f_equal; f_equal; lia.
Qed.

Lemma nearest_clamp n i : 0 < n -> nearest n i = clampz n i.
Proof. intros P; unfold nearest, clampz; destruct (Z.ltb_spec i 0); lia. Qed.

Lemma kernel_lanczos a t : 0 < a -> t = 0%R \/ (epsilon <= Rabs t)%R -> lanczos_kernel t a = lanczos a t.
Proof.
  intros P; pose proof epsilon_pos as E; apply lt_0_INR in P; unfold lanczos, lanczos_kernel; intros [->|L].
  - rewrite Rabs_R0, (proj2 (rltb_spec 0 epsilon)) by apply E; destruct (Req_EM_T 0 0); [auto | lra].
  - rewrite (proj2 (rltb_false _ epsilon)) by auto; destruct (Req_EM_T t 0) as [->|N]; [rewrite Rabs_R0 in L; lra|].
    unfold rltb; destruct (Rlt_dec (Rabs t) (INR a)); auto; cbv zeta; pose proof PI_RGT_0; field; repeat split; lra.
Qed.

(** at the positions that occur the kernel of the code is the windowed sinc function *)
Lemma kernel_at old new x a i : 0 < a -> x < new -> (Z.of_nat new <= 2 ^ 50)%Z ->
  lanczos_kernel (source old new x - IZR i) a = lanczos a (source old new x - IZR i).
Proof.
  intros P X B; apply kernel_lanczos; auto; pose proof epsilon_pos as EP.
  pose proof (source_fraction old new x X B) as T; cbv zeta in T; set (p := source old new x) in *; set (F := Int_part p) in *.
  destruct (Z.eq_dec i F) as [->|N].
  - destruct T as [T|T]; [left; auto | right; rewrite Rabs_pos_eq; lra].
  - right; destruct (Z_lt_le_dec i F) as [L|L].
    + assert (IZR i + 1 <= IZR F)%R by (rewrite <- plus_IZR; apply IZR_le; lia); rewrite Rabs_pos_eq; lra.
    + assert (IZR F + 1 <= IZR i)%R by (rewrite <- plus_IZR; apply IZR_le; lia); rewrite Rabs_left1; lra.
Qed.

Lemma near_ext a p F G : (forall i, F i = G i) -> near a p F = near a p G.
Proof. intros H; apply rsum_ext; intros; apply H. Qed.

Lemma resampled_interpolated w h w' h' a f x y : 0 < w -> 0 < h -> 0 < a -> x < w' -> y < h' -> (Z.of_nat w' <= 2 ^ 50)%Z -> (Z.of_nat h' <= 2 ^ 50)%Z ->
  resampled w h w' h' a f x y = interpolated w h w' h' a f x y.
Proof.
  intros Pw Ph Pa X Y Bw Bh; unfold resampled, interpolated; cbv zeta; rewrite !window_near, !position_source by auto; f_equal; [|f_equal].
  - apply near_ext; intros j; rewrite window_near; apply near_ext; intros i; rewrite !kernel_at, !nearest_clamp by auto; ring.
  - apply near_ext; intros i; apply kernel_at; auto.
  - apply near_ext; intros i; apply kernel_at; auto.
Qed.

(** ** C99 *)
(** every pixel of the result, for every number of lobes and however the pixels are distributed over threads; the sum of
    the weights is positive *)
Theorem C99_value s im w h f w' h' a : sched1_ok s -> Repr im w h f -> 0 < w -> 0 < h -> 0 < a ->
  (Z.of_nat (w + a) <= 2 ^ 31)%Z -> (Z.of_nat (h + a) <= 2 ^ 31)%Z -> (Z.of_nat w' <= 2 ^ 50)%Z -> (Z.of_nat h' <= 2 ^ 50)%Z ->
  exists o, lanczos_resample s im w' h' a = Ok o /\ Repr o w' h' (interpolated w h w' h' a f).
Proof.
  intros Hs R Pw Ph Pa Bw Bh Bw' Bh'; destruct (lanczos_resample_Repr s im w h f w' h' a) as (o & E & Ro); auto.
  exists o; split; auto; eapply Repr_ext; [exact Ro|]; intros x y X Y; apply resampled_interpolated; auto.
Qed.
Print Assumptions C99_value.

Theorem C99_weights old new x a : 0 < old -> x < new -> 0 < a -> (Z.of_nat new <= 2 ^ 50)%Z ->
  (0 < window a (position old new x) (fun i => lanczos a (position old new x - IZR i)))%R.
Proof.
  intros O X P B; rewrite window_near, position_source by auto.
  rewrite (near_ext _ _ _ (fun i => lanczos_kernel (source old new x - IZR i) a)) by (intros; symmetry; apply kernel_at; auto).
  eapply weights_pos; [auto | reflexivity | apply source_fraction; auto].
Qed.
Print Assumptions C99_weights.

Lemma weights_pos_at old new x a : x < new -> 0 < a -> (Z.of_nat new <= 2 ^ 50)%Z ->
  (0 < near a (source old new x) (fun i => lanczos_kernel (source old new x - IZR i) a))%R.
Proof. intros X P B; eapply weights_pos; [auto | reflexivity | apply source_fraction; auto]. Qed.

(** flat pictures stay flat *)
Theorem C99_flat s im w h v w' h' a : sched1_ok s -> Repr im w h (fun _ _ => v) -> 0 < w -> 0 < h -> 0 < a ->
  (Z.of_nat (w + a) <= 2 ^ 31)%Z -> (Z.of_nat (h + a) <= 2 ^ 31)%Z -> (Z.of_nat w' <= 2 ^ 50)%Z -> (Z.of_nat h' <= 2 ^ 50)%Z ->
  exists o, lanczos_resample s im w' h' a = Ok o /\ Repr o w' h' (fun _ _ => v).
Proof.
  intros Hs R Pw Ph Pa Bw Bh Bw' Bh'; destruct (lanczos_resample_Repr s im w h (fun _ _ => v) w' h' a) as (o & E & Ro); auto.
  exists o; split; auto; eapply Repr_ext; [exact Ro|]; intros x y X Y; unfold resampled; cbv zeta.
  pose proof (weights_pos_at w w' x a X Pa Bw') as PX; pose proof (weights_pos_at h h' y a Y Pa Bh') as PY.
  set (p := source w w' x) in *; set (q := source h h' y) in *.
  replace (near a q (fun j => near a p (fun i => v * (lanczos_kernel (p - IZR i) a * lanczos_kernel (q - IZR j) a))))%R
    with (v * (near a p (fun i => lanczos_kernel (p - IZR i) a) * near a q (fun j => lanczos_kernel (q - IZR j) a)))%R; [field; lra|].
  unfold near; rewrite (Rmult_comm (rsum _ _) (rsum _ _)), rsum_mul, <- rsum_scale; apply rsum_ext; intros j _; rewrite <- rsum_scale; apply rsum_ext; intros i _; ring.
Qed.
Print Assumptions C99_flat.

(** resampling to the same extents gives the same picture *)
Theorem C99_identity s im w h f a : sched1_ok s -> Repr im w h f -> 0 < w -> 0 < h -> 0 < a ->
  (Z.of_nat (w + a) <= 2 ^ 31)%Z -> (Z.of_nat (h + a) <= 2 ^ 31)%Z ->
  exists o, lanczos_resample s im w h a = Ok o /\ Repr o w h f.
Proof.
  intros Hs R Pw Ph Pa Bw Bh; destruct (lanczos_resample_Repr s im w h f w h a) as (o & E & Ro); auto; try lia.
  exists o; split; auto; eapply Repr_ext; [exact Ro|]; intros x y X Y; unfold resampled; cbv zeta; rewrite !source_same by auto.
  rewrite (near_ext a (IZR (Z.of_nat y)) _ (fun j => f x (clampz h j) * lanczos_kernel (IZR (Z.of_nat y) - IZR j) a)%R).
  - rewrite (near_integer a (Z.of_nat y) (fun j => f x (clampz h j)) Pa).
    rewrite (near_ext a (IZR (Z.of_nat x)) _ (fun i => 1 * lanczos_kernel (IZR (Z.of_nat x) - IZR i) a)%R) by (intros; ring).
    rewrite (near_ext a (IZR (Z.of_nat y)) _ (fun i => 1 * lanczos_kernel (IZR (Z.of_nat y) - IZR i) a)%R) by (intros; ring).
    rewrite !(near_integer a _ (fun _ => 1%R) Pa); replace (clampz h (Z.of_nat y)) with y by (unfold clampz; lia); field.
  - intros j; rewrite (near_ext a (IZR (Z.of_nat x)) _ (fun i => f (clampz w i) (clampz h j) * lanczos_kernel (IZR (Z.of_nat y) - IZR j) a * lanczos_kernel (IZR (Z.of_nat x) - IZR i) a)%R) by (intros; ring).
    rewrite (near_integer a (Z.of_nat x) (fun i => f (clampz w i) (clampz h j) * lanczos_kernel (IZR (Z.of_nat y) - IZR j) a)%R Pa).
    replace (clampz w (Z.of_nat x)) with x by (unfold clampz; lia); auto.
Qed.
Print Assumptions C99_identity.

(** superposition: a weighted sum of pictures gives the weighted sum of the results *)
Theorem C99_linear s im1 im2 im w h f g u v w' h' a : sched1_ok s -> Repr im1 w h f -> Repr im2 w h g -> Repr im w h (fun x y => u * f x y + v * g x y)%R ->
  0 < w -> 0 < h -> 0 < a ->
  (Z.of_nat (w + a) <= 2 ^ 31)%Z -> (Z.of_nat (h + a) <= 2 ^ 31)%Z -> (Z.of_nat w' <= 2 ^ 50)%Z -> (Z.of_nat h' <= 2 ^ 50)%Z ->
  exists o1 o2 o f' g', lanczos_resample s im1 w' h' a = Ok o1 /\ lanczos_resample s im2 w' h' a = Ok o2 /\ lanczos_resample s im w' h' a = Ok o /\
    Repr o1 w' h' f' /\ Repr o2 w' h' g' /\ Repr o w' h' (fun x y => u * f' x y + v * g' x y)%R.
Proof.
  intros Hs R1 R2 R Pw Ph Pa Bw Bh Bw' Bh'.
  destruct (lanczos_resample_Repr s im1 w h f w' h' a) as (o1 & E1 & Ro1); auto; destruct (lanczos_resample_Repr s im2 w h g w' h' a) as (o2 & E2 & Ro2); auto.
  destruct (lanczos_resample_Repr s im w h _ w' h' a Hs R) as (o & E & Ro); auto.
  exists o1, o2, o; do 2 eexists; do 3 (split; [eassumption|]); do 2 (split; [eassumption|]).
  eapply Repr_ext; [exact Ro|]; intros x y X Y; unfold resampled; cbv beta zeta; unfold Rdiv; rewrite <- !Rmult_assoc, <- Rmult_plus_distr_r; f_equal.
  unfold near; rewrite <- !rsum_scale, <- rsum_add; apply rsum_ext; intros j _; rewrite <- !rsum_scale, <- rsum_add; apply rsum_ext; intros i _; ring.
Qed.
Print Assumptions C99_linear.

(** the mirrored picture gives the mirrored result *)
Lemma near_mirror n a p (G : Z -> R) : 0 < a ->
  near a (IZR n - 1 - p) (fun i => G (n - 1 - i)%Z * lanczos_kernel (IZR n - 1 - p - IZR i) a)%R = near a p (fun i => G i * lanczos_kernel (p - IZR i) a)%R.
Proof.
  intros Pa; destruct (Req_EM_T p (IZR (Int_part p))) as [E|N].
  - rewrite E; replace (IZR n - 1 - IZR (Int_part p))%R with (IZR (n - 1 - Int_part p)) by (rewrite !minus_IZR; ring).
    rewrite (near_integer a _ G Pa), (near_integer a _ (fun i => G (n - 1 - i)%Z) Pa); f_equal; lia.
  - destruct (base_Int_part p) as (A & B); destruct (base_Int_part (IZR n - 1 - p)) as (C & D).
    assert (F : Int_part (IZR n - 1 - p) = (n - 2 - Int_part p)%Z).
    { assert (A' : (IZR (Int_part p) < p)%R) by lra.
      assert (Int_part (IZR n - 1 - p) < n - 1 - Int_part p)%Z by (apply lt_IZR; rewrite !minus_IZR; lra).
      assert (n - 3 - Int_part p < Int_part (IZR n - 1 - p))%Z by (apply lt_IZR; rewrite !minus_IZR; lra).
      lia. }
    unfold near; rewrite !zrange_split, F, Rplus_comm; f_equal; apply rsum_ext; intros j _.
    + f_equal; [f_equal; lia|]; rewrite <- kernel_even; f_equal; rewrite !minus_IZR, !plus_IZR, !minus_IZR; ring.
    + f_equal; [f_equal; lia|]; rewrite <- kernel_even; f_equal; rewrite !plus_IZR, !minus_IZR; ring.
Qed.

Lemma source_mirror old new x : 0 < old -> x < new -> source old new (new - 1 - x) = (IZR (Z.of_nat old) - 1 - source old new x)%R.
Proof.
  intros O X; assert (0 < INR new)%R by (apply lt_0_INR; lia); unfold source; rewrite <- INR_IZR_INZ, !minus_INR by lia; cbn [INR]; field; lra.
Qed.

Theorem C99_mirror s im im' w h f w' h' a : sched1_ok s -> Repr im w h f -> Repr im' w h (fun x y => f (w - 1 - x) y) -> 0 < w -> 0 < h -> 0 < a ->
  (Z.of_nat (w + a) <= 2 ^ 31)%Z -> (Z.of_nat (h + a) <= 2 ^ 31)%Z -> (Z.of_nat w' <= 2 ^ 50)%Z -> (Z.of_nat h' <= 2 ^ 50)%Z ->
  exists o o' g, lanczos_resample s im w' h' a = Ok o /\ lanczos_resample s im' w' h' a = Ok o' /\
    Repr o w' h' g /\ Repr o' w' h' (fun x y => g (w' - 1 - x) y).
Proof.
  intros Hs R R' Pw Ph Pa Bw Bh Bw' Bh'.
  destruct (lanczos_resample_Repr s im w h f w' h' a) as (o & E & Ro); auto; destruct (lanczos_resample_Repr s im' w h _ w' h' a Hs R') as (o' & E' & Ro'); auto.
  exists o, o'; eexists; do 2 (split; [eassumption|]); split; [exact Ro|].
  eapply Repr_ext; [exact Ro'|]; intros x y X Y; unfold resampled; cbv beta zeta; rewrite source_mirror by auto.
  set (p := source w w' x); set (q := source h h' y); f_equal; [|f_equal].
  - apply near_ext; intros j.
    rewrite <- (near_ext a p (fun i => f (w - 1 - clampz w i)%nat (clampz h j) * lanczos_kernel (q - IZR j) a * lanczos_kernel (p - IZR i) a)%R) by (intros; ring).
    rewrite <- (near_mirror (Z.of_nat w) a p (fun i => f (w - 1 - clampz w i)%nat (clampz h j) * lanczos_kernel (q - IZR j) a)%R Pa).
    apply near_ext; intros i; replace (w - 1 - clampz w (Z.of_nat w - 1 - i)) with (clampz w i) by (unfold clampz; lia); ring.
  - rewrite (near_ext a p _ (fun i => 1 * lanczos_kernel (p - IZR i) a)%R) by (intros; ring).
    rewrite <- (near_mirror (Z.of_nat w) a p (fun _ => 1%R) Pa); apply near_ext; intros; ring.
Qed.
Print Assumptions C99_mirror.

(** refused: pictures that are not two-dimensional; undefined: a source without pixels *)
Theorem C99_not_2d s im w' h' a : length (dims im) <> 2 -> lanczos_resample s im w' h' a = Throw RuntimeError.
Proof. intros D; unfold lanczos_resample; rewrite check2d_not2 by auto; reflexivity. Qed.
Print Assumptions C99_not_2d.

Lemma zrange_cons lo hi : (lo <= hi)%Z -> zrange lo hi = lo :: zrange (lo + 1) hi.
Proof.
  intros H; unfold zrange; replace (Z.to_nat (hi - lo + 1)) with (S (Z.to_nat (hi - (lo + 1) + 1))) by lia.
  cbn [seq map]; f_equal; [lia|]; rewrite <- seq_shift, map_map; apply map_ext; intros; lia.
Qed.

Theorem C99_empty_refuted s im h f w' h' a : sched1_ok s -> Repr im 0 h f -> 0 < h -> 0 < w' -> 0 < h' -> 0 < a -> (Z.of_nat (h + a) <= 2 ^ 31)%Z ->
  lanczos_resample s im w' h' a = UB.
Proof.
  intros Hs R Ph Pw' Ph' Pa Bh; unfold lanczos_resample.
  rewrite (check2d_Repr _ _ _ _ R), (get_width_Repr _ _ _ _ R), (get_height_Repr _ _ _ _ R); cbn [bind].
  destruct (s (w' * h')) as [|idx rest] eqn:E; [pose proof (Permutation_length (Hs (w' * h'))) as L; rewrite E, seq_length in L; cbn in L; nia|].
  assert (I : In idx (s (w' * h'))) by (rewrite E; left; auto); apply (sched1_in s) in I; auto; cbn [for_list].
  assert (Y : idx / w' < h') by (apply Nat.div_lt_upper_bound; nia).
  replace ((INR (idx mod w') + / 2) * (INR 0 / INR w') - / 2)%R with (- / 2)%R by (cbn [INR]; unfold Rdiv; ring).
  change ((INR (idx / w') + / 2) * (INR h / INR h') - / 2)%R with (source h h' (idx / w')).
  pose proof (source_floor h h' _ Ph Y) as FY; unfold lanczos_sums.
  assert (FX : Int_part (- / 2) = (-1)%Z).
  { destruct (base_Int_part (- / 2)) as (A & B); assert (Int_part (- / 2) < 0)%Z by (apply lt_IZR; lra); assert (-2 < Int_part (- / 2))%Z by (apply lt_IZR; lra); lia. }
  rewrite FX.
  assert (OK : forall z, (- 2 ^ 31 <= z < 2 ^ 31)%Z -> int_ok z = Ok z) by (intros z Hz; unfold int_ok; replace ((- 2 ^ 31 <=? z)%Z && (z <? 2 ^ 31)%Z) with true by lia; auto).
  rewrite !OK by lia; cbn [bind]; rewrite !OK by lia; cbn [bind].
  rewrite (zrange_cons (Int_part (source h h' (idx / w')) - Z.of_nat a + 1)) by lia; cbn [for_list].
  rewrite (zrange_cons (-1 - Z.of_nat a + 1)) by lia; cbn [for_list]; reflexivity.
Qed.
Print Assumptions C99_empty_refuted.

(** the range of the values is not kept: 1 1 0 0 resampled to two pixels starts with a value above 1.1 *)
Lemma kernel_half j : j < 3 -> lanczos_kernel (1 / 2 + INR j) 3 = (nth j [6; - (4 / 3); 6 / 25] 0 / (PI * PI))%R.
Proof.
  intros J; pose proof PI_RGT_0 as P; pose proof epsilon_pos as E.
  assert (E2 : (epsilon <= 1 / 2)%R).
  { unfold epsilon; replace (1 / 2)%R with (/ 2 ^ 1)%R by (cbn; field); apply Rinv_le_contravar; [apply pow_lt; lra | apply Rle_pow; [lra | lia]]. }
  rewrite kernel_term by (try lia; lra); replace (PI * (1 / 2))%R with (PI / 2)%R by field; rewrite sin_PI2; unfold g_term.
  destruct j as [|[|[|]]]; try lia; cbn [nth INR pow].
  - replace (PI * (1 / 2 + 0) / (1 + 1 + 1))%R with (PI / 6)%R by field; rewrite sin_PI6; field; lra.
  - replace (PI * (1 / 2 + 1) / (1 + 1 + 1))%R with (PI / 2)%R by field; rewrite sin_PI2; field; lra.
  - replace (PI * (1 / 2 + (1 + 1)) / (1 + 1 + 1))%R with (PI - PI / 6)%R by field; rewrite sin_PI_x, sin_PI6; field; lra.
Qed.

Theorem C99_range_refuted : exists im o g, Repr im 4 1 (fun x _ => if x <? 2 then 1%R else 0%R) /\
  lanczos_resample seq0 im 2 1 3 = Ok o /\ Repr o 2 1 g /\ (1.1 < g 0%nat 0%nat)%R /\ (g 1%nat 0%nat < -0.1)%R.
Proof.
  set (f := fun x (_ : nat) => if x <? 2 then 1%R else 0%R); pose proof (img_Repr 4 1 f) as Ri.
  destruct (lanczos_resample_Repr seq0 _ 4 1 f 2 1 3 sched1_seq0 Ri) as (o & E & Ro); try lia.
  exists (img 4 1 f), o, (resampled 4 1 2 1 3 f); split; [exact Ri|]; split; [exact E|]; split; [exact Ro|].
  pose proof PI_RGT_0 as P; assert (PP : (0 < / (PI * PI))%R) by (apply Rinv_0_lt_compat, Rmult_lt_0_compat; lra).
  assert (V : forall x z, (z = 0 /\ x = 0 \/ z = 2 /\ x = 1)%nat -> resampled 4 1 2 1 3 f x 0 =
    ((6 * f (clampz 4 (Z.of_nat z)) 0%nat - 4 / 3 * f (clampz 4 (Z.of_nat z - 1)) 0%nat + 6 / 25 * f (clampz 4 (Z.of_nat z - 2)) 0%nat +
      6 * f (clampz 4 (Z.of_nat z + 1)) 0%nat - 4 / 3 * f (clampz 4 (Z.of_nat z + 2)) 0%nat + 6 / 25 * f (clampz 4 (Z.of_nat z + 3)) 0%nat) / (12 - 8 / 3 + 12 / 25))%R).
  { intros x z Hz; unfold resampled; cbv zeta.
    replace (source 4 2 x) with (INR z + 1 / 2)%R by (destruct Hz as [(-> & ->)|(-> & ->)]; unfold source; cbn [INR]; field).
    replace (source 1 1 0) with (IZR 0) by (unfold source; cbn [INR]; field).
    assert (FZ : Int_part (INR z + 1 / 2) = Z.of_nat z).
    { destruct (base_Int_part (INR z + 1 / 2)) as (A & B); rewrite INR_IZR_INZ in *.
      assert (Int_part (IZR (Z.of_nat z) + 1 / 2) < Z.of_nat z + 1)%Z by (apply lt_IZR; rewrite plus_IZR; lra).
      assert (Z.of_nat z - 1 < Int_part (IZR (Z.of_nat z) + 1 / 2))%Z by (apply lt_IZR; rewrite minus_IZR; lra); lia. }
    assert (K : forall G : Z -> R, near 3 (INR z + 1 / 2) (fun i => G i * lanczos_kernel (INR z + 1 / 2 - IZR i) 3)%R =
      ((6 * G (Z.of_nat z) - 4 / 3 * G (Z.of_nat z - 1)%Z + 6 / 25 * G (Z.of_nat z - 2)%Z + 6 * G (Z.of_nat z + 1)%Z - 4 / 3 * G (Z.of_nat z + 2)%Z + 6 / 25 * G (Z.of_nat z + 3)%Z) / (PI * PI))%R).
    { intros G; unfold near; rewrite FZ, zrange_split; cbn [seq]; rewrite !rsum_cons, !rsum_nil.
      assert (K1 : forall j, j < 3 -> lanczos_kernel (INR z + 1 / 2 - IZR (Z.of_nat z - Z.of_nat j)) 3 = (nth j [6; - (4 / 3); 6 / 25] 0 / (PI * PI))%R).
      { intros j J; rewrite <- kernel_half by auto; f_equal; rewrite minus_IZR, <- !INR_IZR_INZ; ring. }
      assert (K2 : forall j, j < 3 -> lanczos_kernel (INR z + 1 / 2 - IZR (Z.of_nat z + 1 + Z.of_nat j)) 3 = (nth j [6; - (4 / 3); 6 / 25] 0 / (PI * PI))%R).
      { intros j J; rewrite <- kernel_half, <- kernel_even by auto; f_equal; rewrite !plus_IZR, <- !INR_IZR_INZ; field. }
      rewrite !K1, !K2 by lia; cbn [nth Z.of_nat Pos.of_succ_nat Pos.succ].
      rewrite Z.sub_0_r, Z.add_0_r, <- !Z.add_assoc; change (1 + 1)%Z with 2%Z; change (1 + 2)%Z with 3%Z; field; lra. }
    rewrite (near_ext 3 (IZR 0) _ (fun j => near 3 (INR z + 1 / 2) (fun i => f (clampz 4 i) (clampz 1 j) * lanczos_kernel (INR z + 1 / 2 - IZR i) 3) * lanczos_kernel (IZR 0 - IZR j) 3)%R).
    2: { intros j; unfold near; rewrite Rmult_comm, <- rsum_scale; apply rsum_ext; intros; ring. }
    rewrite (near_integer 3 0 (fun j => near 3 (INR z + 1 / 2) (fun i => f (clampz 4 i) (clampz 1 j) * lanczos_kernel (INR z + 1 / 2 - IZR i) 3)%R)) by lia.
    rewrite (near_ext 3 (IZR 0) _ (fun i => 1 * lanczos_kernel (IZR 0 - IZR i) 3)%R) by (intros; ring).
    rewrite (near_integer 3 0 (fun _ => 1%R)) by lia.
    rewrite (near_ext 3 _ (fun i => lanczos_kernel (INR z + 1 / 2 - IZR i) 3) (fun i => 1 * lanczos_kernel (INR z + 1 / 2 - IZR i) 3)%R) by (intros; ring).
    rewrite (K (fun _ => 1%R)), (K (fun i => f (clampz 4 i) (clampz 1 0))); change (clampz 1 0) with 0; field; lra. }
  rewrite (V 0 0), (V 1 2) by lia; unfold f.
  repeat match goal with |- context [if ?b then _ else _] => let v := eval vm_compute in b in change b with v; cbv iota end; split; lra.
Qed.
Print Assumptions C99_range_refuted.

Example C99_case : exists im o, Repr im 100 60 (fun x y => INR (x * y)) /\ lanczos_resample seq0 im 50 30 3 = Ok o /\
  at_ o [49; 29] = Ok (interpolated 100 60 50 30 3 (fun x y => INR (x * y)) 49 29) /\ position 100 50 49 = (197 / 2)%R.
Proof.
  pose proof (img_Repr 100 60 (fun x y => INR (x * y))) as R.
  destruct (C99_value seq0 _ 100 60 _ 50 30 3 sched1_seq0 R) as (o & E & Ro); try lia.
  exists (img 100 60 (fun x y => INR (x * y))), o; split; [exact R|]; split; [exact E|]; split.
  - exact (at_Repr o 50 30 _ 49 29 Ro ltac:(lia) ltac:(lia)).
  - unfold position; rewrite !INR_IZR_INZ; cbn [Z.of_nat Pos.of_succ_nat Pos.succ]; field.
Qed.

(** ** C58 and C98 with the functions of the code *)
Definition half_lanczos (s : nat -> list nat) (im : image R) (w h : nat) : res (image R) := lanczos_resample s im w h 3.

Lemma lanczos_shape s n w h : sched1_ok s -> (Z.of_nat w <= 2 ^ 31 - 3)%Z -> (Z.of_nat h <= 2 ^ 31 - 3)%Z -> resample_shape (half_lanczos s) n w h.
Proof.
  intros Hs W H i im f I Wi Hi R; pose proof (quotient_le w i); pose proof (quotient_le h i).
  destruct (C99_value s im _ _ f (w / 2 ^ i / 2) (h / 2 ^ i / 2) 3 Hs R) as (o & E & Ro); try lia; exists o; eexists; split; [exact E | exact Ro].
Qed.

Lemma gaussian_shape sg s n w h : sched_ok sg -> sched1_ok s -> (Z.of_nat w <= 2 ^ 61)%Z -> (Z.of_nat h <= 2 ^ 61)%Z ->
  (forall i, i < n -> 20 <= w / 2 ^ i -> 20 <= h / 2 ^ i -> 28 <= w / 2 ^ i /\ 28 <= h / 2 ^ i) ->
  dog_shape (difference_of_gaussian sg s) n 5 1.6 (sqrt 2) w h.
Proof.
  intros Hg Hs W H B i index im f I J Wi Hi R; destruct (B i I Wi Hi) as (W28 & H28).
  pose proof (quotient_le w i); pose proof (quotient_le h i).
  set (m1 := nth index [4; 5; 7; 10; 13] 0); set (m2 := nth (index + 1) [4; 5; 7; 10; 13] 0).
  assert (M : m1 <= 13 /\ m2 <= 13) by (clear - J; subst m1 m2; destruct index as [|[|[|[|]]]]; cbn; lia).
  pose proof (default_sizes index ltac:(lia)) as D1; pose proof (default_sizes (index + 1) ltac:(lia)) as D2; cbv zeta in D1, D2; fold m1 in D1; fold m2 in D2; clearbody m1 m2.
  destruct (C97_value sg s im _ _ f _ _ m1 m2 Hg Hs R (default_sd _) (default_sd _) D1 D2) as (o & E & Ro); try lia; exists o; eexists; split; [exact E | exact Ro].
Qed.

(** the default search (any number of octaves) when every octave has at least 28 x 28 pixels *)
Theorem C58_default sg s s' order owner input w h f n contrast edge :
  sched_ok sg -> sched1_ok s -> sched1_ok s' -> Repr input w h f -> (Z.of_nat w <= 2 ^ 31 - 3)%Z -> (Z.of_nat h <= 2 ^ 31 - 3)%Z ->
  (forall l, Permutation (order l) l) -> (forall oi si p q, owner oi si p = owner oi si q) ->
  (forall i, i < n -> 28 <= w / 2 ^ i /\ 28 <= h / 2 ^ i) ->
  exists octaves results, length octaves = n /\
    (forall i octave, nth_error octaves i = Some octave -> length octave = 4 /\
       Forall (fun im => exists g, Repr im (w / 2 ^ i) (h / 2 ^ i) g) octave) /\
    (forall oi si, oi < n -> si < 2 -> exists octave a b c,
      nth_error octaves oi = Some octave /\ nth_error octave si = Some a /\ nth_error octave (si + 1) = Some b /\ nth_error octave (si + 2) = Some c /\
      find_local_extrema (owner oi si) a b c oi si contrast edge false = Ok (results (oi, si))) /\
    get_potential_keypoint (difference_of_gaussian sg s) (half_lanczos s') order owner input n 5 1.6 (sqrt 2) contrast edge =
      mapM (fun kp : keypoint => mapping_point (snd kp) (w / 2 ^ fst (fst kp)) (h / 2 ^ fst (fst kp)) w h)
        (flat_map results (order (pairs (seq 0 n) (fun _ => seq 0 2)))).
Proof.
  intros Hg Hs Hs' R W H P OW B.
  apply (C58_safe (difference_of_gaussian sg s) (half_lanczos s') order owner input w h f n 5 1.6 (sqrt 2) contrast edge); auto; try lia.
  - apply gaussian_shape; auto; lia.
  - apply lanczos_shape; auto.
  - unfold fits, two64; lia.
  - intros i I; specialize (B i I); lia.
Qed.
Print Assumptions C58_default.

(** octaves of 20 to 27 pixels: an exception ends the program *)
Theorem C98_default_ends sg s s' order owner input w h f n contrast edge i :
  sched_ok sg -> sched1_ok s -> sched1_ok s' -> Repr input w h f -> (Z.of_nat w <= 2 ^ 31 - 3)%Z -> (Z.of_nat h <= 2 ^ 31 - 3)%Z ->
  i < n -> 20 <= w / 2 ^ i -> 20 <= h / 2 ^ i -> w / 2 ^ i < 28 \/ h / 2 ^ i < 28 ->
  get_potential_keypoint (difference_of_gaussian sg s) (half_lanczos s') order owner input n 5 1.6 (sqrt 2) contrast edge = UB.
Proof.
  intros Hg Hs Hs' R W H I Wi Hi S; apply (C98_search_ends sg s (half_lanczos s') order owner input w h f n contrast edge i); auto; try lia.
  apply lanczos_shape; auto.
Qed.
Print Assumptions C98_default_ends.

(** otherwise, with an octave below 20 pixels: octaves that do not exist are read *)
Theorem C98_default_undefined sg s s' order owner input w h f n contrast edge i :
  sched_ok sg -> sched1_ok s -> sched1_ok s' -> Repr input w h f -> (Z.of_nat w <= 2 ^ 31 - 3)%Z -> (Z.of_nat h <= 2 ^ 31 - 3)%Z ->
  (forall l, Permutation (order l) l) ->
  (forall i, i < n -> 20 <= w / 2 ^ i -> 20 <= h / 2 ^ i -> 28 <= w / 2 ^ i /\ 28 <= h / 2 ^ i) ->
  i < n -> w / 2 ^ i < 20 \/ h / 2 ^ i < 20 ->
  get_potential_keypoint (difference_of_gaussian sg s) (half_lanczos s') order owner input n 5 1.6 (sqrt 2) contrast edge = UB.
Proof.
  intros Hg Hs Hs' R W H P B I S; apply (C58_octaves _ _ order owner input w h f n 5 1.6 (sqrt 2) contrast edge i); auto.
  - apply gaussian_shape; auto; lia.
  - apply lanczos_shape; auto.
Qed.
Print Assumptions C98_default_undefined.

(** the default parameters (four octaves) on pictures of 100 x 100 and of 150 x 150 *)
Theorem C98_refuted : exists im, Repr im 100 100 (fun x y => INR (x * y)) /\
  get_potential_keypoint (difference_of_gaussian grid seq0) (half_lanczos seq0) (fun l => l) (fun _ _ _ => 0) im 4 5 1.6 (sqrt 2) 8 12.1 = UB.
Proof.
  exists (img 100 100 (fun x y => INR (x * y))); split; [apply img_Repr|].
  apply (C98_default_ends grid seq0 seq0 _ _ _ 100 100 (fun x y => INR (x * y)) 4 8 12.1 2); auto using sched_ok_grid, sched1_seq0, img_Repr; try lia; vm_compute; lia.
Qed.
Print Assumptions C98_refuted.

Theorem C58_refuted : exists im, Repr im 150 150 (fun x y => INR (x * y)) /\
  get_potential_keypoint (difference_of_gaussian grid seq0) (half_lanczos seq0) (fun l => l) (fun _ _ _ => 0) im 4 5 1.6 (sqrt 2) 8 12.1 = UB.
Proof.
  exists (img 150 150 (fun x y => INR (x * y))); split; [apply img_Repr|].
  apply (C98_default_undefined grid seq0 seq0 _ _ _ 150 150 (fun x y => INR (x * y)) 4 8 12.1 3); auto using sched_ok_grid, sched1_seq0, img_Repr; try lia.
  - intros i I; destruct i as [|[|[|[|]]]]; try lia; vm_compute; lia.
Qed.
Print Assumptions C58_refuted.

Example C58_default_case : forall i, i < 4 -> 28 <= 224 / 2 ^ i /\ 28 <= 300 / 2 ^ i.
Proof. intros i I; destruct i as [|[|[|[|]]]]; try lia; vm_compute; lia. Qed.
