(** LanczosProofs.v - facts about Lanczos resampling. *)
From Coq Require Import Reals Lra ZifyBool ZifyNat.
From Verif Require Import Base ImageModel ImageFacts IndexModel ImageProofs GeomModel GeomProofs PixelModel PixelProofs
  BigSum RSum ConvModel BmpModel OField FourierProofs LanczosModel.
Open Scope nat_scope.
Ltac Zify.zify_post_hook ::= Z.div_mod_to_equations.

(** ** sin x / x^2 is decreasing *)
Lemma tangent x : (0 < x)%R -> (x <= PI)%R -> (x * cos x <= sin x)%R.
Proof.
  intros P Q.
  destruct (MVT_cor2 (fun x => sin x - x * cos x)%R (fun x => x * sin x)%R 0 x P) as (c & E & C).
  - intros c _; replace (c * sin c)%R with (cos c - (1 * cos c + c * - sin c))%R by ring.
    apply (derivable_pt_lim_minus sin (fun x => x * cos x)%R); [apply derivable_pt_lim_sin|].
    apply (derivable_pt_lim_mult (fun x => x) cos); [apply derivable_pt_lim_id | apply derivable_pt_lim_cos].
  - rewrite sin_0 in E; pose proof (sin_ge_0 c ltac:(lra) ltac:(lra)) as S.
    assert (0 <= c * sin c * (x - 0))%R by (apply Rmult_le_pos; [apply Rmult_le_pos|]; lra); lra.
Qed.

Lemma sinc_decreasing u v : (0 < u < v)%R -> (v <= PI)%R -> (sin v / v <= sin u / u)%R.
Proof.
  intros (U & L) V.
  destruct (MVT_cor2 (fun x => sin x / x)%R (fun x => (cos x * x - 1 * sin x) / Rsqr x)%R u v L) as (c & E & C).
  - intros c B; apply (derivable_pt_lim_div sin (fun x => x)); [apply derivable_pt_lim_sin | apply derivable_pt_lim_id | lra].
  - pose proof (tangent c ltac:(lra) ltac:(lra)) as T.
    assert (N : (0 <= - ((cos c * c - 1 * sin c) / Rsqr c))%R).
    { replace (- ((cos c * c - 1 * sin c) / Rsqr c))%R with ((sin c - c * cos c) * / Rsqr c)%R by (unfold Rdiv; ring).
      apply Rmult_le_pos; [lra|]; apply Rlt_le, Rinv_0_lt_compat, Rsqr_pos_lt; lra. }
    assert (0 <= - ((cos c * c - 1 * sin c) / Rsqr c) * (v - u))%R by (apply Rmult_le_pos; lra); lra.
Qed.

Definition g_term (a : nat) (u : R) : R := (sin (PI * u / INR a) / (u * u))%R.

Lemma g_pos a u : 0 < a -> (0 < u < INR a)%R -> (0 < g_term a u)%R.
Proof.
  intros P (L & U); apply lt_0_INR in P; pose proof PI_RGT_0 as Q; unfold g_term; apply Rdiv_lt_0_compat; [|nra].
  assert (0 < PI * u)%R by (apply Rmult_lt_0_compat; lra).
  apply sin_gt_0; [apply Rdiv_lt_0_compat; lra|].
  apply (Rmult_lt_reg_r (INR a)); auto; unfold Rdiv; rewrite Rmult_assoc, Rinv_l, Rmult_1_r by lra; apply Rmult_lt_compat_l; lra.
Qed.

Lemma g_decreasing a u v : 0 < a -> (0 < u < v)%R -> (v < INR a)%R -> (g_term a v < g_term a u)%R.
Proof.
  intros P L V; pose proof (g_pos a u P ltac:(lra)) as Gu; apply lt_0_INR in P; pose proof PI_RGT_0 as Q.
  set (c := (PI / INR a)%R); assert (C : (0 < c)%R) by (apply Rdiv_lt_0_compat; auto).
  assert (CA : (c * INR a = PI)%R) by (unfold c; field; lra).
  assert (S : (sin (c * v) / (c * v) <= sin (c * u) / (c * u))%R) by (apply sinc_decreasing; [split; [apply Rmult_lt_0_compat; lra | apply Rmult_lt_compat_l; lra] | nra]).
  assert (E : forall w, (0 < w)%R -> g_term a w = (c * (sin (c * w) / (c * w)) / w)%R).
  { intros w W; unfold g_term; replace (PI * w / INR a)%R with (c * w)%R by (unfold c; field; lra); field; lra. }
  rewrite E in Gu by lra; rewrite !E by lra.
  assert (P1 : (0 < sin (c * u) / (c * u))%R).
  { destruct (Rlt_le_dec 0 (sin (c * u) / (c * u))) as [|N]; auto; exfalso.
    assert (c * (sin (c * u) / (c * u)) / u <= 0)%R; [|lra].
    assert (0 < / u)%R by (apply Rinv_0_lt_compat; lra); unfold Rdiv at 1; assert (0 <= c * - (sin (c * u) / (c * u)) * / u)%R by (apply Rmult_le_pos; [apply Rmult_le_pos|]; lra); lra. }
  set (p := (sin (c * u) / (c * u))%R) in *; set (q := (sin (c * v) / (c * v))%R) in *.
  apply Rle_lt_trans with (c * p / v)%R.
  - unfold Rdiv; apply Rmult_le_compat_r; [apply Rlt_le, Rinv_0_lt_compat; lra | apply Rmult_le_compat_l; lra].
  - unfold Rdiv; apply Rmult_lt_compat_l; [apply Rmult_lt_0_compat; lra|]; apply Rinv_lt_contravar; [apply Rmult_lt_0_compat; lra | lra].
Qed.

(** ** alternating sums *)
Lemma rsum_head (f : nat -> R) n : rsum f (seq 0 (S n)) = (f 0%nat + rsum (fun i => f (S i)) (seq 0 n))%R.
Proof. rewrite <- cons_seq, rsum_cons, <- seq_shift, (bsum_map 0%R Rplus); auto. Qed.

Lemma alternating n : forall g : nat -> R, (forall j, j < n -> (0 <= g j)%R) -> (forall j, S j < n -> (g (S j) <= g j)%R) ->
  (0 <= rsum (fun j => (-1) ^ j * g j) (seq 0 n) <= match n with O => 0 | S _ => g 0%nat end)%R.
Proof.
  induction n as [|n IH]; intros g P D; [cbn; lra|].
  rewrite rsum_head; cbn [pow]; rewrite Rmult_1_l.
  rewrite (rsum_ext _ (fun i => (-1) * ((-1) ^ i * g (S i)))%R) by (intros; ring); rewrite rsum_scale.
  destruct (IH (fun j => g (S j))) as (A & B); [intros; apply P; lia | intros; apply D; lia|].
  destruct n as [|n]; [cbn in *; pose proof (P 0 ltac:(lia)); lra|].
  pose proof (D 0 ltac:(lia)); lra.
Qed.

Lemma alternating_pos n (g : nat -> R) : 0 < n -> (forall j, j < n -> (0 < g j)%R) -> (forall j, S j < n -> (g (S j) < g j)%R) ->
  (0 < rsum (fun j => (-1) ^ j * g j) (seq 0 n))%R.
Proof.
  intros N P D; destruct n as [|n]; [lia|].
  rewrite rsum_head; cbn [pow]; rewrite Rmult_1_l.
  rewrite (rsum_ext _ (fun i => (-1) * ((-1) ^ i * g (S i)))%R) by (intros; ring); rewrite rsum_scale.
  destruct (alternating n (fun j => g (S j))) as (A & B); [intros; apply Rlt_le, P; lia | intros; apply Rlt_le, D; lia|].
  destruct n as [|n]; [pose proof (P 0 ltac:(lia)); lra|].
  pose proof (D 0 ltac:(lia)); lra.
Qed.

(** ** the kernel *)
Lemma epsilon_pos : (0 < epsilon < 1)%R.
Proof.
  unfold epsilon; split; [apply Rinv_0_lt_compat, pow_lt; lra|].
  rewrite <- Rinv_1; apply Rinv_lt_contravar; [rewrite Rmult_1_l; apply pow_lt; lra | apply Rlt_pow_R1; [lra | lia]].
Qed.

Lemma kernel_even x a : lanczos_kernel (- x) a = lanczos_kernel x a.
Proof.
  unfold lanczos_kernel; rewrite Rabs_Ropp; destruct (rltb (Rabs x) epsilon); auto; destruct (rltb (Rabs x) (INR a)); auto.
  replace (PI * - x)%R with (- (PI * x))%R by ring; replace (- (PI * x) / INR a)%R with (- (PI * x / INR a))%R by (unfold Rdiv; ring).
  rewrite !sin_neg; cbv zeta; replace (- (PI * x) * - (PI * x))%R with (PI * x * (PI * x))%R by ring; unfold Rdiv; ring.
Qed.

Lemma kernel_0 a : lanczos_kernel 0 a = 1%R.
Proof. unfold lanczos_kernel; rewrite Rabs_R0, (proj2 (rltb_spec 0 epsilon)); auto; apply epsilon_pos. Qed.

Lemma sin_shift s j : sin (PI * (s + INR j)) = ((-1) ^ j * sin (PI * s))%R.
Proof.
  induction j as [|j IH]; [cbn [INR pow]; rewrite Rplus_0_r; ring|].
  rewrite S_INR; replace (PI * (s + (INR j + 1)))%R with (PI * (s + INR j) + PI)%R by ring; rewrite neg_sin, IH; cbn [pow]; ring.
Qed.

Lemma kernel_integer a j : 0 < j -> lanczos_kernel (INR j) a = 0%R.
Proof.
  intros J; assert (1 <= INR j)%R by (apply (le_INR 1); lia); pose proof epsilon_pos.
  unfold lanczos_kernel; rewrite Rabs_pos_eq by lra; rewrite (proj2 (rltb_false _ epsilon)) by lra.
  destruct (rltb (INR j) (INR a)); auto; cbv zeta.
  replace (INR j) with (0 + INR j)%R at 1 by ring; rewrite sin_shift, Rmult_0_r, sin_0; unfold Rdiv; ring.
Qed.

Lemma kernel_term a s j : 0 < a -> (epsilon <= s)%R -> (s < 1)%R -> j < a ->
  lanczos_kernel (s + INR j) a = (INR a * sin (PI * s) / (PI * PI) * ((-1) ^ j * g_term a (s + INR j)))%R.
Proof.
  intros P E S J; pose proof epsilon_pos; pose proof (pos_INR j); pose proof PI_RGT_0.
  assert (L : (INR j + 1 <= INR a)%R) by (rewrite <- S_INR; apply le_INR; lia).
  unfold lanczos_kernel; rewrite Rabs_pos_eq by lra; rewrite (proj2 (rltb_false _ epsilon)) by lra; rewrite (proj2 (rltb_spec _ (INR a))) by lra.
  cbv zeta; rewrite sin_shift; unfold g_term; field; split; lra.
Qed.

(** the weights on one side of the position *)
Definition side (a : nat) (s : R) : R := rsum (fun j => lanczos_kernel (s + INR j) a) (seq 0 a).

Lemma side_pos a s : 0 < a -> (epsilon <= s)%R -> (s < 1)%R -> (0 < side a s)%R.
Proof.
  intros P E S1; unfold side; pose proof epsilon_pos.
  rewrite (rsum_ext _ (fun j => INR a * sin (PI * s) / (PI * PI) * ((-1) ^ j * g_term a (s + INR j)))%R) by
    (intros j J; apply in_seq in J; apply kernel_term; auto; lia).
  rewrite rsum_scale; pose proof PI_RGT_0; apply Rmult_lt_0_compat.
  - apply Rdiv_lt_0_compat; [|apply Rmult_lt_0_compat; lra]; apply Rmult_lt_0_compat; [apply lt_0_INR; auto|].
    apply sin_gt_0; [apply Rmult_lt_0_compat; lra|]; rewrite <- (Rmult_1_r PI) at 2; apply Rmult_lt_compat_l; lra.
  - apply alternating_pos; auto.
    + intros j J; pose proof (pos_INR j); assert (INR j + 1 <= INR a)%R by (rewrite <- S_INR; apply le_INR; lia); apply g_pos; auto; lra.
    + intros j J; pose proof (pos_INR j); assert (INR (S j) + 1 <= INR a)%R by (rewrite <- S_INR; apply le_INR; lia); rewrite S_INR in *.
      apply g_decreasing; auto; lra.
Qed.

Lemma side_0 a : 0 < a -> side a 0 = 1%R.
Proof.
  intros P; unfold side; rewrite (rsum_single _ a 0 P); [rewrite Rplus_0_l; apply kernel_0|].
  intros i I N; rewrite Rplus_0_l; apply kernel_integer; lia.
Qed.
Lemma side_1 a : side a 1 = 0%R.
Proof. apply rsum_zero; intros j J; rewrite <- (kernel_integer a (S j)) by lia; f_equal; rewrite S_INR; ring. Qed.

(** ** sums over the 2 a positions around x *)
Definition near (a : nat) (x : R) (F : Z -> R) : R := rsum F (zrange (Int_part x - Z.of_nat a + 1) (Int_part x + Z.of_nat a)).

Lemma seq_add_map a n : map (fun j => a + j) (seq 0 n) = seq (0 + a) n.
Proof.
  cbn [Nat.add]; revert a; induction n as [|n IH]; intros a; cbn [seq map]; auto; f_equal; [lia|].
  rewrite <- seq_shift, map_map, <- (IH (S a)); apply map_ext; intros; lia.
Qed.

Lemma zrange_split (F : Z -> R) lo a :
  rsum F (zrange (lo - Z.of_nat a + 1) (lo + Z.of_nat a)) =
  (rsum (fun j => F (lo - Z.of_nat j)%Z) (seq 0 a) + rsum (fun j => F (lo + 1 + Z.of_nat j)%Z) (seq 0 a))%R.
Proof.
  unfold zrange; replace (Z.to_nat (lo + Z.of_nat a - (lo - Z.of_nat a + 1) + 1)) with (a + a) by lia.
  rewrite (bsum_map 0%R Rplus); rewrite seq_app, (bsum_app 0%R Rplus r0r rC rA); f_equal.
  - assert (G : forall n f, rsum f (seq 0 n) = rsum (fun i => f (n - 1 - i)) (seq 0 n)).
    { clear; induction n as [|n IH]; intros f; [reflexivity|].
      rewrite rsum_S, rsum_head, IH, Rplus_comm; f_equal; [f_equal; lia|]; apply rsum_ext; intros i I; apply in_seq in I; f_equal; lia. }
    rewrite G; apply rsum_ext; intros i I; apply in_seq in I; f_equal; lia.
  - replace (seq (0 + a) a) with (map (fun j => a + j) (seq 0 a)) by (rewrite <- seq_add_map; reflexivity).
    rewrite (bsum_map 0%R Rplus); apply rsum_ext; intros i I; f_equal; lia.
Qed.

Lemma near_weights a x t : t = (x - IZR (Int_part x))%R -> near a x (fun i => lanczos_kernel (x - IZR i) a) = (side a t + side a (1 - t))%R.
Proof.
  intros T; unfold near; rewrite zrange_split; unfold side; f_equal; apply rsum_ext; intros j J.
  - f_equal; rewrite minus_IZR, <- INR_IZR_INZ, T; ring.
  - rewrite <- kernel_even; f_equal; rewrite !plus_IZR, <- INR_IZR_INZ, T; ring.
Qed.

Lemma weights_pos a x t : 0 < a -> t = (x - IZR (Int_part x))%R -> t = 0%R \/ (epsilon <= t <= 1 - epsilon)%R ->
  (0 < near a x (fun i => lanczos_kernel (x - IZR i) a))%R.
Proof.
  intros P T B; rewrite (near_weights a x t T); pose proof epsilon_pos; destruct B as [->|B].
  - rewrite Rminus_0_r, side_0, side_1 by auto; lra.
  - pose proof (side_pos a t P ltac:(lra) ltac:(lra)); pose proof (side_pos a (1 - t) P ltac:(lra) ltac:(lra)); lra.
Qed.

Lemma near_integer a z (F : Z -> R) : 0 < a -> near a (IZR z) (fun i => F i * lanczos_kernel (IZR z - IZR i) a)%R = F z.
Proof.
  intros P; unfold near; replace (Int_part (IZR z)) with z.
  - rewrite zrange_split, (rsum_single _ a 0 P).
    + rewrite rsum_zero; [cbn [Z.of_nat]; rewrite Z.sub_0_r, Rminus_diag_eq, kernel_0 by auto; ring|].
      intros j J; rewrite <- kernel_even; replace (- (IZR z - IZR (z + 1 + Z.of_nat j)))%R with (INR (S j)) by (rewrite S_INR, !plus_IZR, <- INR_IZR_INZ; ring).
      rewrite kernel_integer by lia; ring.
    + intros j J N; replace (IZR z - IZR (z - Z.of_nat j))%R with (INR j) by (rewrite minus_IZR, <- INR_IZR_INZ; ring).
      rewrite kernel_integer by lia; ring.
  - destruct (base_Int_part (IZR z)) as (A & B); apply le_IZR in A; apply Z.le_antisymm; auto.
    assert (z - 1 < Int_part (IZR z))%Z by (apply lt_IZR; rewrite minus_IZR; lra); lia.
Qed.

(** ** the position in the source picture *)
Definition source (old new x : nat) : R := ((INR x + / 2) * (INR old / INR new) - / 2)%R.

Lemma source_range old new x : 0 < old -> x < new -> (- / 2 < source old new x < INR old - / 2)%R.
Proof.
  intros O X; unfold source; assert (N : (0 < INR new)%R) by (apply lt_0_INR; lia); assert (P : (0 < INR old)%R) by (apply lt_0_INR; lia).
  pose proof (pos_INR x) as X0; assert (X1 : (INR x + 1 <= INR new)%R) by (rewrite <- S_INR; apply le_INR; lia).
  assert (Q : (0 < INR old / INR new)%R) by (apply Rdiv_lt_0_compat; auto); split.
  - assert (0 < (INR x + / 2) * (INR old / INR new))%R by (apply Rmult_lt_0_compat; lra); lra.
  - assert ((INR x + / 2) * (INR old / INR new) < INR new * (INR old / INR new))%R by (apply Rmult_lt_compat_r; lra).
    replace (INR new * (INR old / INR new))%R with (INR old) in * by (field; lra); lra.
Qed.

Lemma source_floor old new x : 0 < old -> x < new -> (-1 <= Int_part (source old new x) < Z.of_nat old)%Z.
Proof.
  intros O X; pose proof (source_range old new x O X) as (A & B); destruct (base_Int_part (source old new x)) as (C & D); split.
  - assert (-2 < Int_part (source old new x))%Z by (apply lt_IZR; lra); lia.
  - apply lt_IZR; rewrite <- INR_IZR_INZ; lra.
Qed.

(** the distance to the pixel grid is a multiple of 1 / (2 new), so the threshold of the kernel separates 0 from the rest *)
Lemma source_fraction old new x : x < new -> (Z.of_nat new <= 2 ^ 50)%Z -> let t := (source old new x - IZR (Int_part (source old new x)))%R in
  t = 0%R \/ (epsilon <= t <= 1 - epsilon)%R.
Proof.
  intros X B t; assert (N : (0 < INR new)%R) by (apply lt_0_INR; lia).
  destruct (base_Int_part (source old new x)) as (C & D); fold t in C, D |- *.
  set (m := ((2 * Z.of_nat x + 1) * Z.of_nat old - Z.of_nat new - 2 * Z.of_nat new * Int_part (source old new x))%Z).
  assert (E : (t * (2 * INR new) = IZR m)%R).
  { unfold m; rewrite !minus_IZR, !mult_IZR, plus_IZR, mult_IZR, <- !INR_IZR_INZ; unfold t.
    set (p := IZR (Int_part (source old new x))); unfold source; field; lra. }
  assert (T : (0 <= t < 1)%R) by (unfold t; lra).
  assert (M0 : (0 <= m)%Z) by (apply le_IZR; rewrite <- E; apply Rmult_le_pos; lra).
  assert (M1 : (m <= 2 * Z.of_nat new - 1)%Z).
  { assert (m < 2 * Z.of_nat new)%Z; [|lia]; apply lt_IZR; rewrite mult_IZR, <- INR_IZR_INZ, <- E.
    rewrite <- (Rmult_1_l (2 * INR new)) at 2; apply Rmult_lt_compat_r; lra. }
  destruct (Z.eq_dec m 0) as [Z|Z]; [left; rewrite Z in E; nra | right].
  assert (K : (epsilon * (2 * INR new) <= 1)%R).
  { unfold epsilon; apply (Rmult_le_reg_l (2 ^ 52)); [apply pow_lt; lra|].
    rewrite <- Rmult_assoc, Rinv_r, Rmult_1_l, Rmult_1_r by (apply pow_nonzero; lra).
    rewrite INR_IZR_INZ, <- mult_IZR, pow_IZR; apply IZR_le; change (Z.of_nat 52) with 52%Z; lia. }
  assert (A1 : (1 <= IZR m)%R) by (apply IZR_le; lia).
  assert (A2 : (IZR m <= 2 * INR new - 1)%R) by (rewrite INR_IZR_INZ, <- mult_IZR, <- minus_IZR; apply IZR_le; lia).
  rewrite <- E in A1, A2; split; apply (Rmult_le_reg_r (2 * INR new)); lra.
Qed.

Lemma source_same n x : 0 < n -> source n n x = IZR (Z.of_nat x).
Proof. intros P; apply lt_0_INR in P; unfold source; rewrite <- INR_IZR_INZ; field; lra. Qed.

(** ** the loops *)
Definition clampz (n : nat) (i : Z) : nat := Z.to_nat (Z.max 0 (Z.min i (Z.of_nat n - 1))).

Lemma lanczos_sums_ok im w h f a x y : Repr im w h f -> 0 < w -> 0 < h -> (Z.of_nat (w + a) <= 2 ^ 31)%Z -> (Z.of_nat (h + a) <= 2 ^ 31)%Z ->
  (-1 <= Int_part x < Z.of_nat w)%Z -> (-1 <= Int_part y < Z.of_nat h)%Z -> 0 < a ->
  lanczos_sums im w h a x y =
    Ok (near a y (fun j => near a x (fun i => f (clampz w i) (clampz h j) * (lanczos_kernel (x - IZR i) a * lanczos_kernel (y - IZR j) a))),
        near a y (fun j => near a x (fun i => lanczos_kernel (x - IZR i) a * lanczos_kernel (y - IZR j) a)))%R.
Proof.
  intros R Pw Ph Bw Bh Bx By Pa; unfold lanczos_sums.
  assert (I : forall z, (- 2 ^ 31 <= z < 2 ^ 31)%Z -> int_ok z = Ok z) by (intros z Hz; unfold int_ok; replace ((- 2 ^ 31 <=? z)%Z && (z <? 2 ^ 31)%Z) with true by lia; auto).
  rewrite !I by lia; cbn [bind]; rewrite !I by lia; cbn [bind].
  assert (S : forall n, 0 < n -> (Z.of_nat n < 2 ^ 31)%Z -> s32 (Z.of_nat n) = Z.of_nat n).
  { intros n N B; unfold s32, u32; cbv zeta; rewrite Z.mod_small by lia; replace (Z.of_nat n <? 2 ^ 31)%Z with true by lia; auto. }
  rewrite !S by lia.
  assert (CL : forall n i, 0 < n -> clamp0 i (Z.of_nat n - 1) = Ok (Z.of_nat (clampz n i))) by
    (intros n i N; unfold clamp0, clampz; replace (Z.of_nat n - 1 <? 0)%Z with false by lia; f_equal; lia).
  rewrite (pair_loop _ (fun j => near a x (fun i => f (clampz w i) (clampz h j) * (lanczos_kernel (x - IZR i) a * lanczos_kernel (y - IZR j) a))%R)
    (fun j => near a x (fun i => lanczos_kernel (x - IZR i) a * lanczos_kernel (y - IZR j) a)%R)).
  - cbn [fst snd]; unfold near; do 2 f_equal; ring.
  - intros j st J; apply pair_loop; intros i st' I'.
    rewrite !CL by lia; cbn [bind]; rewrite !Nat2Z.id; destruct (Req_EM_T _ 0) as [Z|Z].
    + rewrite Z, Rmult_0_r, !Rplus_0_r; destruct st'; auto.
    + rewrite (at_Repr _ _ _ _ _ _ R) by (unfold clampz; lia); reflexivity.
Qed.

(** ** the picture *)
Definition resampled (w h w' h' a : nat) (f : nat -> nat -> R) (x y : nat) : R :=
  let px := source w w' x in let py := source h h' y in
  (near a py (fun j => near a px (fun i => f (clampz w i) (clampz h j) * (lanczos_kernel (px - IZR i) a * lanczos_kernel (py - IZR j) a))) /
   (near a px (fun i => lanczos_kernel (px - IZR i) a) * near a py (fun j => lanczos_kernel (py - IZR j) a)))%R.

Lemma lanczos_resample_Repr s im w h f w' h' a : sched1_ok s -> Repr im w h f -> 0 < w -> 0 < h -> 0 < a ->
  (Z.of_nat (w + a) <= 2 ^ 31)%Z -> (Z.of_nat (h + a) <= 2 ^ 31)%Z -> (Z.of_nat w' <= 2 ^ 50)%Z -> (Z.of_nat h' <= 2 ^ 50)%Z ->
  exists o, lanczos_resample s im w' h' a = Ok o /\ Repr o w' h' (resampled w h w' h' a f).
Proof.
  intros Hs R Pw Ph Pa Bw Bh Bw' Bh'; unfold lanczos_resample.
  rewrite (check2d_Repr _ _ _ _ R), (get_width_Repr _ _ _ _ R), (get_height_Repr _ _ _ _ R); cbn [bind].
  apply (overlay_all _ _ (fun idx => idx mod w') (fun idx => idx / w')).
  - reflexivity.
  - unfold image_sizes; cbn [pix]; rewrite repeat_length; apply prodn2.
  - intros idx st I D L; apply (sched1_in s) in I; auto.
    assert (X : idx mod w' < w') by (apply Nat.mod_upper_bound; nia); assert (Y : idx / w' < h') by (apply Nat.div_lt_upper_bound; nia).
    change ((INR (idx mod w') + / 2) * (INR w / INR w') - / 2)%R with (source w w' (idx mod w')).
    change ((INR (idx / w') + / 2) * (INR h / INR h') - / 2)%R with (source h h' (idx / w')).
    pose proof (source_floor w w' _ Pw X) as FX; pose proof (source_floor h h' _ Ph Y) as FY.
    rewrite (lanczos_sums_ok im w h f) by auto; cbn [bind].
    assert (E : (near a (source h h' (idx / w')) (fun j => near a (source w w' (idx mod w')) (fun i =>
        lanczos_kernel (source w w' (idx mod w') - IZR i) a * lanczos_kernel (source h h' (idx / w') - IZR j) a)) =
      near a (source w w' (idx mod w')) (fun i => lanczos_kernel (source w w' (idx mod w') - IZR i) a) *
      near a (source h h' (idx / w')) (fun j => lanczos_kernel (source h h' (idx / w') - IZR j) a))%R).
    { unfold near; rewrite Rmult_comm, rsum_mul; apply rsum_ext; intros j _; apply rsum_ext; intros i _; ring. }
    rewrite E.
    pose proof (weights_pos a _ _ Pa eq_refl (source_fraction w w' _ X Bw')) as PX; pose proof (weights_pos a _ _ Pa eq_refl (source_fraction h h' _ Y Bh')) as PY.
    destruct (Req_EM_T _ 0) as [Z|Z]; [pose proof (Rmult_lt_0_compat _ _ PX PY); lra|].
    rewrite (at_set2_ok st w' h') by auto; reflexivity.
  - intros idx I; apply (sched1_in s) in I; auto; split; [apply Nat.mod_upper_bound; nia | apply Nat.div_lt_upper_bound; nia].
  - intros x y X Y; exists (y * w' + x); rewrite (sched1_in s) by auto; split; [nia|]; split.
    + rewrite Nat.add_comm, Nat.mod_add by lia; apply Nat.mod_small; auto.
    + rewrite Nat.div_add_l by lia; rewrite Nat.div_small by auto; lia.
Qed.
