(** FourierProofs.v - lemmas about the cosine and Fourier transforms. *)
From Coq Require Import Reals Lra ZifyBool ZifyNat.
From Verif Require Import Base BigSum RSum ImageModel ImageFacts IndexModel ImageProofs GeomModel PixelModel FourierModel.
Open Scope nat_scope.

(** ** trigonometric sums *)
Lemma rsum_S (f : nat -> R) n : rsum f (seq 0 (S n)) = (rsum f (seq 0 n) + f n)%R.
Proof. rewrite seq_S, (bsum_app 0%R Rplus r0r rC rA); f_equal; unfold bsum; cbn; lra. Qed.

Lemma cos_sum t n : (2 * sin (t / 2) * rsum (fun k => cos (INR k * t)) (seq 0 n) = sin ((INR n - / 2) * t) + sin (t / 2))%R.
Proof.
  induction n as [|n IH].
  - unfold bsum; cbn [seq fold_left INR]; replace ((0 - / 2) * t)%R with (- (t / 2))%R by field; rewrite sin_neg; ring.
  - rewrite rsum_S, Rmult_plus_distr_l, IH, S_INR.
    replace ((INR n + 1 - / 2) * t)%R with (INR n * t + t / 2)%R by field.
    replace ((INR n - / 2) * t)%R with (INR n * t - t / 2)%R by field.
    rewrite sin_plus, sin_minus; ring.
Qed.

Lemma sin_sum t n : (2 * sin (t / 2) * rsum (fun k => sin (INR k * t)) (seq 0 n) = cos (t / 2) - cos ((INR n - / 2) * t))%R.
Proof.
  induction n as [|n IH].
  - unfold bsum; cbn [seq fold_left INR]; replace ((0 - / 2) * t)%R with (- (t / 2))%R by field; rewrite cos_neg; ring.
  - rewrite rsum_S, Rmult_plus_distr_l, IH, S_INR.
    replace ((INR n + 1 - / 2) * t)%R with (INR n * t + t / 2)%R by field.
    replace ((INR n - / 2) * t)%R with (INR n * t - t / 2)%R by field.
    rewrite cos_plus, cos_minus; ring.
Qed.

Lemma cos_odd_sum t n : (2 * sin t * rsum (fun k => cos ((2 * INR k + 1) * t)) (seq 0 n) = sin (2 * INR n * t))%R.
Proof.
  induction n as [|n IH].
  - unfold bsum; cbn [seq fold_left INR]; replace (2 * 0 * t)%R with 0%R by ring; rewrite sin_0; ring.
  - rewrite rsum_S, Rmult_plus_distr_l, IH, S_INR.
    replace (2 * (INR n + 1) * t)%R with ((2 * INR n + 1) * t + t)%R by ring.
    replace (2 * INR n * t)%R with ((2 * INR n + 1) * t - t)%R by ring.
    rewrite sin_plus, sin_minus; ring.
Qed.

Lemma sin_Zpi z : sin (IZR z * PI) = 0%R.
Proof. apply sin_eq_0_1; exists z; auto. Qed.
Lemma cos_2Zpi z : cos (2 * IZR z * PI) = 1%R.
Proof.
  assert (N : forall k, cos (2 * INR k * PI) = 1%R).
  { intros k; rewrite <- (Rplus_0_l (2 * INR k * PI)), cos_period; apply cos_0. }
  destruct (Z.le_ge_cases 0 z) as [H|H].
  - rewrite <- (Z2Nat.id z H), <- INR_IZR_INZ; apply N.
  - rewrite <- cos_neg; replace (- (2 * IZR z * PI))%R with (2 * IZR (- z) * PI)%R by (rewrite opp_IZR; ring).
    rewrite <- (Z2Nat.id (- z)), <- INR_IZR_INZ by lia; apply N.
Qed.
Lemma sin_2Zpi z : sin (2 * IZR z * PI) = 0%R.
Proof. replace (2 * IZR z * PI)%R with (IZR (2 * z) * PI)%R by (rewrite mult_IZR; ring); apply sin_Zpi. Qed.

(** sin (pi j / N) <> 0 for 0 < |j| < N *)
Lemma sin_frac (N : nat) (j : Z) : (0 < Z.abs j < Z.of_nat N)%Z -> sin (PI * IZR j / INR N) <> 0%R.
Proof.
  intros H; assert (NP : (0 < INR N)%R) by (apply lt_0_INR; lia).
  assert (G : forall i, (0 < i < Z.of_nat N)%Z -> (0 < sin (PI * IZR i / INR N))%R).
  { intros i Hi; assert (I1 : (0 < IZR i)%R) by (apply IZR_lt; lia).
    assert (I2 : (IZR i < INR N)%R) by (rewrite INR_IZR_INZ; apply IZR_lt; lia).
    pose proof PI_RGT_0 as PP.
    assert (F : (0 < IZR i / INR N < 1)%R).
    { split; [apply Rdiv_lt_0_compat; auto|]; apply Rmult_lt_reg_r with (INR N); auto; unfold Rdiv; rewrite Rmult_assoc, Rinv_l by lra; lra. }
    replace (PI * IZR i / INR N)%R with (PI * (IZR i / INR N))%R by (field; lra); apply sin_gt_0; nra. }
  destruct (Z.le_ge_cases 0 j) as [Hj|Hj].
  - specialize (G j ltac:(lia)); lra.
  - specialize (G (- j)%Z ltac:(lia)); rewrite opp_IZR in G.
    replace (PI * - IZR j / INR N)%R with (- (PI * IZR j / INR N))%R in G by (field; lra); rewrite sin_neg in G; lra.
Qed.

(** ** orthogonality *)
Definition del (i j : nat) : R := if i =? j then 1%R else 0%R.

(** Fourier *)
Lemma dft_cos N x m : 0 < N -> x < N -> m < N ->
  rsum (fun k => cos (2 * PI * ((INR x - INR m) * INR k) / INR N)) (seq 0 N) = (INR N * del x m)%R.
Proof.
  intros HN Hx Hm; assert (NP : (0 < INR N)%R) by (apply lt_0_INR; lia).
  set (j := (Z.of_nat x - Z.of_nat m)%Z).
  assert (EJ : (INR x - INR m)%R = IZR j) by (unfold j; rewrite minus_IZR, <- !INR_IZR_INZ; auto).
  rewrite EJ; unfold del; destruct (Nat.eqb_spec x m) as [->|Ne].
  - replace j with 0%Z by lia; rewrite (rsum_ext _ (fun _ => 1%R)).
    + rewrite rsum_const, seq_length; auto.
    + intros k _; replace (2 * PI * (0 * INR k) / INR N)%R with 0%R by (field; lra); apply cos_0.
  - pose proof (cos_sum (2 * PI * IZR j / INR N) N) as H.
    replace (2 * PI * IZR j / INR N / 2)%R with (PI * IZR j / INR N)%R in H by (field; lra).
    replace ((INR N - / 2) * (2 * PI * IZR j / INR N))%R with (2 * IZR j * PI - PI * IZR j / INR N)%R in H by (field; lra).
    rewrite sin_minus, cos_2Zpi, sin_2Zpi in H.
    assert (S0 : sin (PI * IZR j / INR N) <> 0%R) by (apply sin_frac; unfold j; lia).
    rewrite (rsum_ext _ (fun k => cos (INR k * (2 * PI * IZR j / INR N)))%R) by (intros k _; f_equal; field; lra).
    rewrite Rmult_0_r; apply Rmult_eq_reg_l with (2 * sin (PI * IZR j / INR N))%R; [rewrite H; ring | lra].
Qed.

Lemma dft_sin N x m : 0 < N -> x < N -> m < N ->
  rsum (fun k => sin (2 * PI * ((INR x - INR m) * INR k) / INR N)) (seq 0 N) = 0%R.
Proof.
  intros HN Hx Hm; assert (NP : (0 < INR N)%R) by (apply lt_0_INR; lia).
  set (j := (Z.of_nat x - Z.of_nat m)%Z).
  assert (EJ : (INR x - INR m)%R = IZR j) by (unfold j; rewrite minus_IZR, <- !INR_IZR_INZ; auto).
  rewrite EJ; destruct (Nat.eqb_spec x m) as [->|Ne].
  - replace j with 0%Z by lia; apply rsum_zero; intros k _.
    replace (2 * PI * (0 * INR k) / INR N)%R with 0%R by (field; lra); apply sin_0.
  - pose proof (sin_sum (2 * PI * IZR j / INR N) N) as H.
    replace (2 * PI * IZR j / INR N / 2)%R with (PI * IZR j / INR N)%R in H by (field; lra).
    replace ((INR N - / 2) * (2 * PI * IZR j / INR N))%R with (2 * IZR j * PI - PI * IZR j / INR N)%R in H by (field; lra).
    rewrite cos_minus, cos_2Zpi, sin_2Zpi in H.
    assert (S0 : sin (PI * IZR j / INR N) <> 0%R) by (apply sin_frac; unfold j; lia).
    rewrite (rsum_ext _ (fun k => sin (INR k * (2 * PI * IZR j / INR N)))%R) by (intros k _; f_equal; field; lra).
    apply Rmult_eq_reg_l with (2 * sin (PI * IZR j / INR N))%R; [rewrite H; ring | lra].
Qed.

(** cosine transform *)
Lemma alpha_sq k : (alpha k * alpha k = if k =? 0 then / 2 else 1)%R.
Proof.
  unfold alpha; destruct (k =? 0); [|ring].
  replace (sqrt 2 / 2 * (sqrt 2 / 2))%R with (sqrt 2 * sqrt 2 / 4)%R by field; rewrite sqrt_sqrt by lra; lra.
Qed.

(** Σ_k alpha_k^2 cos (pi j k / N) for an integer j, 0 < |j| < 2N *)
Lemma alpha_sum N (j : Z) : 0 < N -> (0 < Z.abs j < 2 * Z.of_nat N)%Z ->
  rsum (fun k => alpha k * alpha k * cos (PI * IZR j * INR k / INR N))%R (seq 0 N) = (- cos (PI * IZR j) / 2)%R.
Proof.
  intros HN Hj; assert (NP : (0 < INR N)%R) by (apply lt_0_INR; lia).
  rewrite (rsum_ext _ (fun k => cos (INR k * (PI * IZR j / INR N)) - (if k =? 0 then / 2 else 0))%R).
  2:{ intros k _; rewrite alpha_sq; replace (PI * IZR j * INR k / INR N)%R with (INR k * (PI * IZR j / INR N))%R by (field; lra).
      destruct (Nat.eqb_spec k 0) as [->|_]; [cbn [INR]; rewrite Rmult_0_l, cos_0; lra | lra]. }
  rewrite rsum_sub, (rsum_single (fun k => if k =? 0 then / 2 else 0)%R N 0) by (try lia; intros i _ Ni; apply Nat.eqb_neq in Ni; rewrite Ni; auto).
  cbn [Nat.eqb]; pose proof (cos_sum (PI * IZR j / INR N) N) as H.
  replace ((INR N - / 2) * (PI * IZR j / INR N))%R with (IZR j * PI - PI * IZR j / INR N / 2)%R in H by (field; lra).
  rewrite sin_minus, sin_Zpi, (Rmult_comm (IZR j) PI) in H.
  assert (S0 : sin (PI * IZR j / INR N / 2) <> 0%R).
  { replace (PI * IZR j / INR N / 2)%R with (PI * IZR j / INR (2 * N))%R by (rewrite mult_INR; cbn [INR]; field; lra).
    apply sin_frac; lia. }
  apply Rmult_eq_reg_l with (2 * sin (PI * IZR j / INR N / 2))%R; [|lra].
  rewrite Rmult_minus_distr_l, H; field.
Qed.

Lemma cos_prod a b : (cos a * cos b = (cos (a - b) + cos (a + b)) / 2)%R.
Proof. rewrite cos_minus, cos_plus; field. Qed.

(** sum over the frequencies *)
Lemma dct_orth_freq N m m' : 0 < N -> m < N -> m' < N ->
  rsum (fun k => (alpha k * cos (dct_angle N m k)) * (2 * alpha k / INR N * cos (dct_angle N m' k)))%R (seq 0 N) = del m m'.
Proof.
  intros HN Hm Hm'; assert (NP : (0 < INR N)%R) by (apply lt_0_INR; lia).
  set (j1 := (Z.of_nat m - Z.of_nat m')%Z); set (j2 := (Z.of_nat m + Z.of_nat m' + 1)%Z).
  rewrite (rsum_ext _ (fun k => / INR N * (alpha k * alpha k * cos (PI * IZR j1 * INR k / INR N) + alpha k * alpha k * cos (PI * IZR j2 * INR k / INR N)))%R).
  2:{ intros k _; unfold dct_angle.
      transitivity (2 * (alpha k * alpha k) / INR N * (cos (PI / (2 * INR N) * (2 * INR m + 1) * INR k) * cos (PI / (2 * INR N) * (2 * INR m' + 1) * INR k)))%R; [field; lra|].
      rewrite cos_prod; unfold j1, j2; rewrite !plus_IZR, minus_IZR, <- !INR_IZR_INZ.
      replace (PI / (2 * INR N) * (2 * INR m + 1) * INR k - PI / (2 * INR N) * (2 * INR m' + 1) * INR k)%R with (PI * (INR m - INR m') * INR k / INR N)%R by (field; lra).
      replace (PI / (2 * INR N) * (2 * INR m + 1) * INR k + PI / (2 * INR N) * (2 * INR m' + 1) * INR k)%R with (PI * (INR m + INR m' + 1) * INR k / INR N)%R by (field; lra).
      field; lra. }
  rewrite rsum_scale, rsum_add, (alpha_sum N j2) by (unfold j2; lia).
  unfold del; destruct (Nat.eqb_spec m m') as [->|Ne].
  - replace j1 with 0%Z by lia.
    rewrite (rsum_ext _ (fun k => 1 - (if k =? 0 then / 2 else 0))%R).
    2:{ intros k _; replace (PI * 0 * INR k / INR N)%R with 0%R by (field; lra); rewrite alpha_sq, cos_0; destruct (k =? 0); lra. }
    rewrite rsum_sub, rsum_const, seq_length, (rsum_single (fun k => if k =? 0 then / 2 else 0)%R N 0) by (try lia; intros i _ Ni; apply Nat.eqb_neq in Ni; rewrite Ni; auto).
    cbn [Nat.eqb]; replace (PI * IZR j2)%R with (2 * IZR (Z.of_nat m') * PI + PI)%R.
    + rewrite neg_cos, cos_2Zpi; field; lra.
    + unfold j2; rewrite !plus_IZR; ring.
  - rewrite (alpha_sum N j1) by (unfold j1; lia).
    replace (PI * IZR j2)%R with (PI * IZR j1 + 2 * IZR (Z.of_nat m') * PI + PI)%R.
    + rewrite neg_cos, (cos_plus (PI * IZR j1)), cos_2Zpi, sin_2Zpi; field; lra.
    + unfold j1, j2; rewrite !plus_IZR, minus_IZR; ring.
Qed.

(** sum over the positions *)
Lemma dct_orth_pos N x x' : 0 < N -> x < N -> x' < N ->
  rsum (fun m => (2 * alpha x / INR N * cos (dct_angle N m x)) * (alpha x' * cos (dct_angle N m x')))%R (seq 0 N) = del x x'.
Proof.
  intros HN Hx Hx'; assert (NP : (0 < INR N)%R) by (apply lt_0_INR; lia).
  assert (OS : forall j : Z, (0 < Z.abs j < 2 * Z.of_nat N)%Z -> rsum (fun k => cos ((2 * INR k + 1) * (PI * IZR j / INR (2 * N)))) (seq 0 N) = 0%R).
  { intros j Hj; pose proof (cos_odd_sum (PI * IZR j / INR (2 * N)) N) as H.
    assert (S0 := sin_frac (2 * N) j ltac:(lia)).
    replace (2 * INR N * (PI * IZR j / INR (2 * N)))%R with (IZR j * PI)%R in H by (rewrite mult_INR; cbn [INR]; field; lra).
    rewrite sin_Zpi in H; apply Rmult_eq_reg_l with (2 * sin (PI * IZR j / INR (2 * N)))%R; [rewrite H; ring | lra]. }
  set (j1 := (Z.of_nat x - Z.of_nat x')%Z); set (j2 := (Z.of_nat x + Z.of_nat x')%Z).
  rewrite (rsum_ext _ (fun m => alpha x * alpha x' / INR N * (cos ((2 * INR m + 1) * (PI * IZR j1 / INR (2 * N))) + cos ((2 * INR m + 1) * (PI * IZR j2 / INR (2 * N)))))%R).
  2:{ intros m _; unfold dct_angle.
      transitivity (2 * alpha x * alpha x' / INR N * (cos (PI / (2 * INR N) * (2 * INR m + 1) * INR x) * cos (PI / (2 * INR N) * (2 * INR m + 1) * INR x')))%R; [field; lra|].
      rewrite cos_prod; unfold j1, j2; rewrite plus_IZR, minus_IZR, <- !INR_IZR_INZ, mult_INR; cbn [INR].
      replace (PI / (2 * INR N) * (2 * INR m + 1) * INR x - PI / (2 * INR N) * (2 * INR m + 1) * INR x')%R with ((2 * INR m + 1) * (PI * (INR x - INR x') / ((1 + 1) * INR N)))%R by (field; lra).
      replace (PI / (2 * INR N) * (2 * INR m + 1) * INR x + PI / (2 * INR N) * (2 * INR m + 1) * INR x')%R with ((2 * INR m + 1) * (PI * (INR x + INR x') / ((1 + 1) * INR N)))%R by (field; lra).
      field; lra. }
  rewrite rsum_scale, rsum_add; unfold del.
  assert (ONE : rsum (fun k => cos ((2 * INR k + 1) * (PI * 0 / INR (2 * N)))) (seq 0 N) = INR N).
  { rewrite (rsum_ext _ (fun _ => 1%R)); [rewrite rsum_const, seq_length; ring|].
    intros k _; replace ((2 * INR k + 1) * (PI * 0 / INR (2 * N)))%R with 0%R by (unfold Rdiv; ring); apply cos_0. }
  destruct (Nat.eqb_spec x x') as [->|Ne].
  - replace j1 with 0%Z by lia; rewrite ONE, alpha_sq; destruct (Nat.eqb_spec x' 0) as [->|N0].
    + replace j2 with 0%Z by lia; rewrite ONE; field; lra.
    + rewrite (OS j2) by (unfold j2; lia); field; lra.
  - rewrite (OS j1), (OS j2) by (unfold j1, j2; lia); ring.
Qed.

(** ** separable transforms of a volume *)
Definition trip (d h w : nat) : list (nat * (nat * nat)) := pairs (seq 0 d) (fun _ => grid h w).

Lemma in_trip d h w p : In p (trip d h w) <-> fst p < d /\ fst (snd p) < h /\ snd (snd p) < w.
Proof. unfold trip; rewrite in_pairs, in_seq, in_grid; lia. Qed.

Lemma rsum_trip g d h w : rsum g (trip d h w) = rsum (fun z => rsum (fun y => rsum (fun x => g (z, (y, x))) (seq 0 w)) (seq 0 h)) (seq 0 d).
Proof.
  unfold trip; rewrite (bsum_pairs 0%R Rplus r0r rC rA); apply rsum_ext; intros z _.
  unfold grid; rewrite (bsum_pairs 0%R Rplus r0r rC rA); auto.
Qed.

Lemma rsum_trip_prod (u v t : nat -> R) d h w :
  rsum (fun p => u (fst p) * v (fst (snd p)) * t (snd (snd p)))%R (trip d h w) = (rsum u (seq 0 d) * rsum v (seq 0 h) * rsum t (seq 0 w))%R.
Proof.
  rewrite rsum_trip; cbn [fst snd].
  rewrite (rsum_ext _ (fun z => (rsum v (seq 0 h) * rsum t (seq 0 w)) * u z)%R).
  - rewrite rsum_scale; ring.
  - intros z _; rewrite (rsum_ext _ (fun y => (u z * rsum t (seq 0 w)) * v y)%R) by (intros y _; rewrite rsum_scale; ring).
    rewrite rsum_scale; ring.
Qed.

Lemma rsum_trip_del (g : nat -> nat -> nat -> R) d h w z y x : z < d -> y < h -> x < w ->
  rsum (fun p => g (fst p) (fst (snd p)) (snd (snd p)) * (del z (fst p) * del y (fst (snd p)) * del x (snd (snd p))))%R (trip d h w) = g z y x.
Proof.
  intros Hz Hy Hx; rewrite rsum_trip; cbn [fst snd].
  rewrite (rsum_single _ d z Hz).
  - rewrite (rsum_single _ h y Hy).
    + rewrite (rsum_single _ w x Hx); [unfold del; rewrite !Nat.eqb_refl; ring|].
      intros i _ Ni; unfold del; apply not_eq_sym, Nat.eqb_neq in Ni; rewrite Ni; ring.
    + intros j _ Nj; apply rsum_zero; intros i _; unfold del; apply not_eq_sym, Nat.eqb_neq in Nj; rewrite Nj; ring.
  - intros k _ Nk; apply rsum_zero; intros j _; apply rsum_zero; intros i _; unfold del; apply not_eq_sym, Nat.eqb_neq in Nk; rewrite Nk; ring.
Qed.

Definition kern3 (K : nat -> nat -> nat -> R) (d h w : nat) (q p : nat * (nat * nat)) : R :=
  (K d (fst q) (fst p) * K h (fst (snd q)) (fst (snd p)) * K w (snd (snd q)) (snd (snd p)))%R.

Lemma separable_inverse (B A : nat -> nat -> nat -> R) d h w (f : nat -> nat -> nat -> R) z y x :
  (forall N i j, 0 < N -> i < N -> j < N -> rsum (fun k => B N i k * A N k j)%R (seq 0 N) = del i j) ->
  z < d -> y < h -> x < w ->
  rsum (fun p => kern3 B d h w (z, (y, x)) p *
          rsum (fun r => kern3 A d h w p r * f (fst r) (fst (snd r)) (snd (snd r))) (trip d h w))%R (trip d h w) = f z y x.
Proof.
  intros HO Hz Hy Hx.
  rewrite (rsum_ext _ (fun p => rsum (fun r => kern3 B d h w (z, (y, x)) p * (kern3 A d h w p r * f (fst r) (fst (snd r)) (snd (snd r))))%R (trip d h w)))
    by (intros p _; rewrite rsum_scale; auto).
  rewrite rsum_swap.
  rewrite (rsum_ext _ (fun r => f (fst r) (fst (snd r)) (snd (snd r)) * (del z (fst r) * del y (fst (snd r)) * del x (snd (snd r))))%R).
  - apply rsum_trip_del; auto.
  - intros r Hr; apply in_trip in Hr.
    rewrite <- (HO d z (fst r)), <- (HO h y (fst (snd r))), <- (HO w x (snd (snd r))) by lia.
    rewrite <- rsum_trip_prod, <- rsum_scale; apply rsum_ext; intros p _; unfold kern3; cbn [fst snd]; ring.
Qed.

(** ** the loops *)
(** [v] is a list of [d] planes of extents w x h; plane z has pixel f z x y *)
Definition Vol (v : list (image R)) (w h d : nat) (f : nat -> nat -> nat -> R) : Prop :=
  length v = d /\ forall z, z < d -> exists im, nth_error v z = Some im /\ Repr im w h (f z).

Lemma sum_loop {I} (l : list I) (t : I -> R) body s : (forall i s, In i l -> body i s = Ok (s + t i)%R) ->
  for_list l body s = Ok (s + rsum t l)%R.
Proof.
  intros H; destruct (for_list_fold (fun _ => True) (fun i s => s + t i)%R l body s Logic.I) as [E _].
  - intros i s' Hi _; split; auto.
  - rewrite E, (fold_add 0%R Rplus r0r rC rA); auto.
Qed.

Lemma vol_loop v w h d f (t : nat -> nat -> nat -> R -> R) : Vol v w h d f ->
  for_range d (fun z sum =>
    let* plane := vget v z in let* h := get_height plane in let* w := get_width plane in
    for_range h (fun y sum => for_range w (fun x sum => let* a := at_ plane [x; y] in Ok (sum + t z y x a)%R) sum) sum) 0%R =
  Ok (rsum (fun p => t (fst p) (fst (snd p)) (snd (snd p)) (f (fst p) (snd (snd p)) (fst (snd p)))) (trip d h w)).
Proof.
  intros [L HV]; unfold for_range at 1.
  rewrite (sum_loop _ (fun z => rsum (fun p => t z (fst p) (snd p) (f z (snd p) (fst p))) (grid h w))).
  - f_equal; unfold trip; rewrite (bsum_pairs 0%R Rplus r0r rC rA), Rplus_0_l; auto.
  - intros z s Hz; apply in_seq in Hz; destruct (HV z) as (im & Ev & HR); [lia|].
    unfold vget; rewrite Ev; cbn [bind]; rewrite (get_height_Repr _ _ _ _ HR), (get_width_Repr _ _ _ _ HR); cbn [bind].
    rewrite for_range_nested; apply sum_loop; intros p s' Hp; apply in_grid in Hp.
    rewrite (at_Repr _ _ _ _ _ _ HR) by lia; auto.
Qed.

(** forward and inverse kernels *)
Definition FK (N x m : nat) : R := (2 * alpha x / INR N * cos (dct_angle N m x))%R.
Definition IK (N m x : nat) : R := (alpha x * cos (dct_angle N m x))%R.

Definition dct_value (d h w : nat) (f : nat -> nat -> nat -> R) (z x y : nat) : R :=
  rsum (fun r => kern3 FK d h w (z, (y, x)) r * f (fst r) (snd (snd r)) (fst (snd r)))%R (trip d h w).
Definition idct_value (d h w : nat) (f : nat -> nat -> nat -> R) (z x y : nat) : R :=
  rsum (fun r => kern3 IK d h w (z, (y, x)) r * f (fst r) (snd (snd r)) (fst (snd r)))%R (trip d h w).

Lemma fill_grid2 (sg : nat -> nat -> list (nat * nat)) w h (body : nat * nat -> image R -> res (image R)) (g : nat -> nat -> R) :
  sched_ok sg ->
  (forall y x s, y < h -> x < w -> dims s = [w; h] -> length (pix s) = w * h -> body (y, x) s = Ok (im_upd s (y * w + x) (g x y))) ->
  exists o, for_list (sg h w) body (image_sizes 0%R [w; h]) = Ok o /\ Repr o w h g.
Proof.
  intros Hs Hb; apply (overlay_all (sg h w) body snd fst).
  - reflexivity.
  - unfold image_sizes; cbn [pix]; rewrite repeat_length; apply prodn2.
  - intros [y x] s Hi; apply (sched_in sg h w) in Hi; auto; cbn [fst snd] in *; apply Hb; lia.
  - intros i Hi; apply (sched_in sg h w) in Hi; auto; lia.
  - intros x y Hx Hy; exists (y, x); rewrite (sched_in sg h w) by auto; cbn [fst snd]; auto.
Qed.

Lemma dct3_one_plane_spec sg v w h d f k : sched_ok sg -> Vol v w h d f -> k < d ->
  exists o, dct3_one_plane sg v k = Ok o /\ Repr o w h (dct_value d h w f k).
Proof.
  intros Hs HV Hk; pose proof HV as [L HP]; unfold dct3_one_plane.
  destruct (HP 0) as (im0 & E0 & R0); [lia|]; destruct (HP k Hk) as (imk & Ek & Rk).
  unfold vget at 1; rewrite E0; cbn [bind]; rewrite (get_width_Repr _ _ _ _ R0), (get_height_Repr _ _ _ _ R0); cbn [bind].
  unfold vget at 1; rewrite Ek; cbn [bind]; rewrite (get_width_Repr _ _ _ _ Rk), (get_height_Repr _ _ _ _ Rk), L; cbn [bind].
  apply fill_grid2; auto; intros y x s Hy Hx Ds Ls.
  rewrite (vol_loop v w h d f (fun z iy ix a => a * cos (dct_angle w ix x) * cos (dct_angle h iy y) * cos (dct_angle d z k))%R HV); cbn [bind].
  rewrite (at_set2_ok s w h) by auto; do 2 f_equal; unfold dct_value.
  assert (0 < INR w)%R by (apply lt_0_INR; lia); assert (0 < INR h)%R by (apply lt_0_INR; lia); assert (0 < INR d)%R by (apply lt_0_INR; lia).
  transitivity (8 * alpha k * alpha y * alpha x / (INR w * INR h * INR d) *
    rsum (fun p => f (fst p) (snd (snd p)) (fst (snd p)) * cos (dct_angle w (snd (snd p)) x) * cos (dct_angle h (fst (snd p)) y) * cos (dct_angle d (fst p) k))%R (trip d h w))%R;
    [field; lra|].
  rewrite <- rsum_scale; apply rsum_ext; intros p _; unfold kern3, FK; cbn [fst snd]; field; lra.
Qed.

Lemma idct3_one_plane_spec sg v w h d f k : sched_ok sg -> Vol v w h d f -> k < d ->
  exists o, idct3_one_plane sg v k = Ok o /\ Repr o w h (idct_value d h w f k).
Proof.
  intros Hs HV Hk; pose proof HV as [L HP]; unfold idct3_one_plane.
  destruct (HP 0) as (im0 & E0 & R0); [lia|]; destruct (HP k Hk) as (imk & Ek & Rk).
  unfold vget at 1; rewrite E0; cbn [bind]; rewrite (get_width_Repr _ _ _ _ R0), (get_height_Repr _ _ _ _ R0); cbn [bind].
  unfold vget at 1; rewrite Ek; cbn [bind]; rewrite (get_width_Repr _ _ _ _ Rk), (get_height_Repr _ _ _ _ Rk), L; cbn [bind].
  apply fill_grid2; auto; intros y x s Hy Hx Ds Ls.
  rewrite (vol_loop v w h d f (fun z iy ix a => alpha ix * alpha iy * alpha z * a * cos (dct_angle w x ix) * cos (dct_angle h y iy) * cos (dct_angle d k z))%R HV); cbn [bind].
  rewrite (at_set2_ok s w h) by auto; do 2 f_equal; unfold idct_value.
  apply rsum_ext; intros p _; unfold kern3, IK; cbn [fst snd]; ring.
Qed.

Lemma idct_dct_value d h w f z x y : z < d -> x < w -> y < h -> idct_value d h w (dct_value d h w f) z x y = f z x y.
Proof.
  intros Hz Hx Hy; unfold idct_value, dct_value.
  etransitivity; [|exact (separable_inverse IK FK d h w (fun z y x => f z x y) z y x dct_orth_freq Hz Hy Hx)].
  apply rsum_ext; intros [z' [y' x']] _; cbn [fst snd]; auto.
Qed.

Lemma dct_idct_value d h w f z x y : z < d -> x < w -> y < h -> dct_value d h w (idct_value d h w f) z x y = f z x y.
Proof.
  intros Hz Hx Hy; unfold idct_value, dct_value.
  etransitivity; [|exact (separable_inverse FK IK d h w (fun z y x => f z x y) z y x dct_orth_pos Hz Hy Hx)].
  apply rsum_ext; intros [z' [y' x']] _; cbn [fst snd]; auto.
Qed.

Lemma idct_value_ext d h w f g z x y : (forall a b c, a < d -> b < w -> c < h -> f a b c = g a b c) -> idct_value d h w f z x y = idct_value d h w g z x y.
Proof. intros H; apply rsum_ext; intros p Hp; apply in_trip in Hp; rewrite H by lia; auto. Qed.
Lemma dct_value_ext d h w f g z x y : (forall a b c, a < d -> b < w -> c < h -> f a b c = g a b c) -> dct_value d h w f z x y = dct_value d h w g z x y.
Proof. intros H; apply rsum_ext; intros p Hp; apply in_trip in Hp; rewrite H by lia; auto. Qed.

Lemma mapM_planes (F : nat -> res (image R)) w h d g : (forall k, k < d -> exists o, F k = Ok o /\ Repr o w h (g k)) ->
  exists vs, mapM F (seq 0 d) = Ok vs /\ Vol vs w h d g.
Proof.
  intros H.
  assert (G : forall n a, a + n <= d -> exists vs, mapM F (seq a n) = Ok vs /\ length vs = n /\
    forall z, z < n -> exists im, nth_error vs z = Some im /\ Repr im w h (g (a + z))).
  { induction n as [|n IH]; intros a Ha; [exists []; cbn; repeat split; auto; intros; lia|].
    destruct (H a) as (o & Eo & Ro); [lia|]; destruct (IH (S a)) as (vs & Ev & Lv & Hv); [lia|].
    exists (o :: vs); cbn [seq mapM]; rewrite Eo; cbn [bind]; rewrite Ev; cbn [bind]; split; auto; split; [cbn; lia|].
    intros [|z] Hz; [exists o; rewrite Nat.add_0_r; auto|].
    destruct (Hv z) as (im & E & R); [lia|]; exists im; replace (a + S z) with (S a + z) by lia; auto. }
  destruct (G d 0) as (vs & E & L & HV); [lia|]; exists vs; split; auto; split; auto.
Qed.

Lemma Vol_one im w h f : Repr im w h f -> Vol [im] w h 1 (fun _ => f).
Proof. intros R; split; auto; intros z Hz; replace z with 0 by lia; exists im; auto. Qed.

Lemma cast_Repr {A B} (c : A -> B) im w h f : 0 < w -> 0 < h -> Repr im w h f ->
  exists o, cast c im = Ok o /\ Repr o w h (fun x y => c (f x y)).
Proof.
  intros Hw Hh HR; pose proof HR as (D & L & HN).
  destruct (cast_wf c im) as (o & E & Do & Wo & HL).
  - eapply Repr_wf; eauto.
  - intros P0; rewrite P0 in L; cbn in L; nia.
  - exists o; split; auto; split; [congruence|]; split.
    + unfold wf in Wo; rewrite Wo, Do, D; apply prodn2.
    + intros x y Hx Hy; specialize (HL [x; y]); unfold lookup in HL; rewrite Do, D, off2, HN in HL by auto.
      destruct (in_range_dec [w; h] [x; y]) as [I|I]; [|exfalso; apply I, in_range2; auto]; apply HL; auto.
Qed.

(** ** Fourier transform *)
Definition dft_re W H (f : nat -> nat -> R) x y : R :=
  (sqrt (1 / INR (W * H)) * rsum (fun p => f (snd p) (fst p) * cos (2 * PI * (INR x * INR (snd p) / INR W + INR y * INR (fst p) / INR H))) (grid H W))%R.
Definition dft_im W H (f : nat -> nat -> R) x y : R :=
  (sqrt (1 / INR (W * H)) * rsum (fun p => - f (snd p) (fst p) * sin (2 * PI * (INR x * INR (snd p) / INR W + INR y * INR (fst p) / INR H))) (grid H W))%R.

Lemma dft_angle_eq W H x y m n : fits (W * W) -> fits (H * H) -> x < W -> m < W -> y < H -> n < H ->
  dft_angle W H x y m n = (2 * PI * (INR x * INR m / INR W + INR y * INR n / INR H))%R.
Proof.
  intros FW FH Hx Hm Hy Hn; unfold dft_angle.
  assert (E1 : wn (Z.of_nat x * Z.of_nat m) = x * m).
  { unfold wn, w64; unfold fits in FW; rewrite Z.mod_small by nia; lia. }
  assert (E2 : wn (Z.of_nat y * Z.of_nat n) = y * n).
  { unfold wn, w64; unfold fits in FH; rewrite Z.mod_small by nia; lia. }
  rewrite E1, E2, !mult_INR; auto.
Qed.

Lemma pair_loop {I} (l : list I) (t u : I -> R) body s : (forall i s, In i l -> body i s = Ok (fst s + t i, snd s + u i)%R) ->
  for_list l body s = Ok (fst s + rsum t l, snd s + rsum u l)%R.
Proof.
  revert s; induction l as [|i l IH]; intros s H; cbn [for_list].
  - unfold bsum; cbn [fold_left]; rewrite !Rplus_0_r; destruct s; auto.
  - rewrite H by (left; auto); cbn [bind]; rewrite IH by (intros; apply H; right; auto); cbn [fst snd].
    rewrite !rsum_cons; do 2 f_equal; ring.
Qed.

Lemma fill_grid_pair {B} (d0 : B) w h (body : nat * nat -> image B -> res (image B)) (g : nat -> nat -> B) :
  (forall y x s, y < h -> x < w -> dims s = [w; h] -> length (pix s) = w * h -> body (y, x) s = Ok (im_upd s (y * w + x) (g x y))) ->
  exists o, for_list (grid h w) body (image_sizes d0 [w; h]) = Ok o /\ Repr o w h g.
Proof.
  intros Hb; apply (overlay_all (grid h w) body snd fst).
  - reflexivity.
  - unfold image_sizes; cbn [pix]; rewrite repeat_length; apply prodn2.
  - intros [y x] s Hi; apply in_grid in Hi; cbn [fst snd] in *; apply Hb; lia.
  - intros i Hi; apply in_grid in Hi; lia.
  - intros x y Hx Hy; exists (y, x); rewrite in_grid; cbn [fst snd]; auto.
Qed.

Lemma wn_size W H : fits (W * H) -> wn (Z.of_nat W * Z.of_nat H) = W * H.
Proof. intros F; unfold wn, w64; unfold fits in F; rewrite Z.mod_small by nia; lia. Qed.

Lemma dft2_gen {A} (conv neg : A -> R) im W H f : Repr im W H f -> fits (W * W) -> fits (H * H) -> fits (W * H) ->
  exists o, dft2 conv neg im = Ok o /\
    Repr o W H (fun x y => (dft_re W H (fun x y => conv (f x y)) x y, dft_im W H (fun x y => - neg (f x y))%R x y)).
Proof.
  intros HR FW FH FWH; unfold dft2; rewrite (get_width_Repr _ _ _ _ HR), (get_height_Repr _ _ _ _ HR); cbn [bind].
  rewrite wn_size by auto; rewrite for_range_nested; apply fill_grid_pair; intros y x s Hy Hx Ds Ls; cbn [fst snd].
  rewrite for_range_nested.
  rewrite (pair_loop (grid H W) (fun p => conv (f (snd p) (fst p)) * cos (2 * PI * (INR x * INR (snd p) / INR W + INR y * INR (fst p) / INR H)))%R
    (fun p => - - neg (f (snd p) (fst p)) * sin (2 * PI * (INR x * INR (snd p) / INR W + INR y * INR (fst p) / INR H)))%R).
  - cbn [bind fst snd]; rewrite !Rplus_0_l; apply (atu_set2_ok s W H); auto.
  - intros p s' Hp; apply in_grid in Hp; rewrite (atu_Repr _ _ _ _ _ _ HR) by lia; cbn [bind].
    rewrite dft_angle_eq, Ropp_involutive by (auto; lia); auto.
Qed.

Lemma dft_im_ext W H f g x y : (forall a b, a < W -> b < H -> f a b = g a b) -> dft_im W H f x y = dft_im W H g x y.
Proof. intros E; unfold dft_im; f_equal; apply rsum_ext; intros p Hp; apply in_grid in Hp; rewrite E by lia; auto. Qed.

Lemma dft2_spec {A} (conv neg : A -> R) im W H f : Repr im W H f -> fits (W * W) -> fits (H * H) -> fits (W * H) ->
  (forall x y, x < W -> y < H -> neg (f x y) = (- conv (f x y))%R) ->
  exists o, dft2 conv neg im = Ok o /\
    Repr o W H (fun x y => (dft_re W H (fun x y => conv (f x y)) x y, dft_im W H (fun x y => conv (f x y)) x y)).
Proof.
  intros HR FW FH FWH HN; destruct (dft2_gen conv neg im W H f HR FW FH FWH) as (o & E & Ro); exists o; split; auto.
  eapply Repr_ext; [exact Ro|]; intros x y Hx Hy; cbv beta; f_equal; apply dft_im_ext; intros a b Ha Hb; rewrite HN by auto; ring.
Qed.

Definition idft_value W H (f : nat -> nat -> R * R) x y : R * R :=
  let s := sqrt (1 / INR (W * H)) in
  let t p := (2 * PI * (INR x * INR (snd p) / INR W + INR y * INR (fst p) / INR H))%R in
  (s * rsum (fun p => fst (f (snd p) (fst p)) * cos (t p) - snd (f (snd p) (fst p)) * sin (t p)) (grid H W),
   s * rsum (fun p => fst (f (snd p) (fst p)) * sin (t p) + snd (f (snd p) (fst p)) * cos (t p)) (grid H W))%R.

Lemma idft2_spec im W H f : Repr im W H f -> fits (W * W) -> fits (H * H) -> fits (W * H) ->
  exists o, idft2 im = Ok o /\ Repr o W H (idft_value W H f).
Proof.
  intros HR FW FH FWH; unfold idft2; rewrite (get_width_Repr _ _ _ _ HR), (get_height_Repr _ _ _ _ HR); cbn [bind].
  rewrite wn_size by auto; rewrite for_range_nested; apply fill_grid_pair; intros y x s Hy Hx Ds Ls; cbn [fst snd].
  rewrite for_range_nested.
  rewrite (pair_loop (grid H W) (fun p => let t := (2 * PI * (INR x * INR (snd p) / INR W + INR y * INR (fst p) / INR H))%R in
      fst (f (snd p) (fst p)) * cos t - snd (f (snd p) (fst p)) * sin t)%R
    (fun p => let t := (2 * PI * (INR x * INR (snd p) / INR W + INR y * INR (fst p) / INR H))%R in
      fst (f (snd p) (fst p)) * sin t + snd (f (snd p) (fst p)) * cos t)%R).
  - cbn [bind fst snd]; rewrite !Rplus_0_l; apply (atu_set2_ok s W H); auto.
  - intros p s' Hp; apply in_grid in Hp; rewrite (atu_Repr _ _ _ _ _ _ HR) by lia; cbn [bind].
    rewrite dft_angle_eq by (auto; lia); unfold cadd, cmul; cbn [fst snd]; f_equal; f_equal; ring.
Qed.

Lemma rsum_grid g h w : rsum g (grid h w) = rsum (fun y => rsum (fun x => g (y, x)) (seq 0 w)) (seq 0 h).
Proof. unfold grid; rewrite (bsum_pairs 0%R Rplus r0r rC rA); auto. Qed.

Lemma rsum_grid_prod (v t : nat -> R) h w : rsum (fun p => v (fst p) * t (snd p))%R (grid h w) = (rsum v (seq 0 h) * rsum t (seq 0 w))%R.
Proof.
  rewrite rsum_grid; cbn [fst snd]; rewrite (rsum_ext _ (fun y => rsum t (seq 0 w) * v y)%R) by (intros y _; rewrite rsum_scale; ring).
  rewrite rsum_scale; ring.
Qed.

(** the phase between two positions, summed over all frequencies *)
Lemma dft_orth W H x y m n : x < W -> m < W -> y < H -> n < H ->
  let a p := (2 * PI * (INR x * INR (snd p) / INR W + INR y * INR (fst p) / INR H))%R in
  let b p := (2 * PI * (INR (snd p) * INR m / INR W + INR (fst p) * INR n / INR H))%R in
  rsum (fun p => cos (b p) * cos (a p) + sin (b p) * sin (a p))%R (grid H W) = (INR (W * H) * (del x m * del y n))%R /\
  rsum (fun p => cos (b p) * sin (a p) - sin (b p) * cos (a p))%R (grid H W) = 0%R.
Proof.
  intros Hx Hm Hy Hn a b.
  assert (W0 : (0 < INR W)%R) by (apply lt_0_INR; lia); assert (H0 : (0 < INR H)%R) by (apply lt_0_INR; lia).
  set (u := fun k => (2 * PI * ((INR x - INR m) * INR k) / INR W)%R); set (v := fun k => (2 * PI * ((INR y - INR n) * INR k) / INR H)%R).
  assert (AB : forall p, (a p - b p)%R = (u (snd p) + v (fst p))%R) by (intros p; unfold a, b, u, v; field; lra).
  assert (CW := dft_cos W x m ltac:(lia) Hx Hm); assert (CH := dft_cos H y n ltac:(lia) Hy Hn).
  assert (SW := dft_sin W x m ltac:(lia) Hx Hm); assert (SH := dft_sin H y n ltac:(lia) Hy Hn).
  fold (u) in CW, SW; fold (v) in CH, SH.
  split.
  - rewrite (rsum_ext _ (fun p => cos (v (fst p)) * cos (u (snd p)) - sin (v (fst p)) * sin (u (snd p)))%R).
    + rewrite rsum_sub, (rsum_grid_prod (fun k => cos (v k)) (fun k => cos (u k))), (rsum_grid_prod (fun k => sin (v k)) (fun k => sin (u k))).
      unfold u, v; rewrite CW, CH, SW, SH, mult_INR; ring.
    + intros p _; rewrite (Rmult_comm (cos (b p))), (Rmult_comm (sin (b p))), <- cos_minus, AB, cos_plus; ring.
  - rewrite (rsum_ext _ (fun p => cos (v (fst p)) * sin (u (snd p)) + sin (v (fst p)) * cos (u (snd p)))%R).
    + rewrite rsum_add, (rsum_grid_prod (fun k => cos (v k)) (fun k => sin (u k))), (rsum_grid_prod (fun k => sin (v k)) (fun k => cos (u k))).
      unfold u, v; rewrite CW, CH, SW, SH; ring.
    + intros p _; rewrite (Rmult_comm (cos (b p))), (Rmult_comm (sin (b p))), (Rmult_comm (cos (a p))), (Rmult_comm (sin (b p))).
      replace (sin (a p) * cos (b p) - cos (a p) * sin (b p))%R with (sin (a p - b p)) by (rewrite sin_minus; ring).
      rewrite AB, sin_plus; ring.
Qed.

Lemma rsum_grid_del (g : nat -> nat -> R) h w y x : y < h -> x < w ->
  rsum (fun p => g (fst p) (snd p) * (del x (snd p) * del y (fst p)))%R (grid h w) = g y x.
Proof.
  intros Hy Hx; rewrite rsum_grid; cbn [fst snd]; rewrite (rsum_single _ h y Hy).
  - rewrite (rsum_single _ w x Hx); [unfold del; rewrite !Nat.eqb_refl; ring|].
    intros i _ Ni; unfold del; apply not_eq_sym, Nat.eqb_neq in Ni; rewrite Ni; ring.
  - intros j _ Nj; apply rsum_zero; intros i _; unfold del; apply not_eq_sym, Nat.eqb_neq in Nj; rewrite Nj; ring.
Qed.

Lemma idft_dft_value W H f x y : x < W -> y < H ->
  idft_value W H (fun x y => (dft_re W H f x y, dft_im W H f x y)) x y = (f x y, 0%R).
Proof.
  intros Hx Hy; unfold idft_value; cbv zeta; cbn [fst snd].
  assert (W0 : (0 < INR W)%R) by (apply lt_0_INR; lia); assert (H0 : (0 < INR H)%R) by (apply lt_0_INR; lia).
  set (s := sqrt (1 / INR (W * H))).
  assert (S2 : (s * s * INR (W * H) = 1)%R).
  { unfold s; rewrite sqrt_sqrt; rewrite mult_INR; [field; lra|].
    apply Rlt_le, Rdiv_lt_0_compat; [lra | apply Rmult_lt_0_compat; auto]. }
  set (a := fun p : nat * nat => (2 * PI * (INR x * INR (snd p) / INR W + INR y * INR (fst p) / INR H))%R).
  set (b := fun (p r : nat * nat) => (2 * PI * (INR (snd p) * INR (snd r) / INR W + INR (fst p) * INR (fst r) / INR H))%R).
  assert (O : forall r, In r (grid H W) ->
    rsum (fun p => cos (b p r) * cos (a p) + sin (b p r) * sin (a p))%R (grid H W) = (INR (W * H) * (del x (snd r) * del y (fst r)))%R /\
    rsum (fun p => cos (b p r) * sin (a p) - sin (b p r) * cos (a p))%R (grid H W) = 0%R).
  { intros r Hr; apply in_grid in Hr; apply dft_orth; lia. }
  assert (RE : forall p, dft_re W H f (snd p) (fst p) = (s * rsum (fun r => f (snd r) (fst r) * cos (b p r)) (grid H W))%R) by reflexivity.
  assert (IM : forall p, dft_im W H f (snd p) (fst p) = (s * rsum (fun r => - f (snd r) (fst r) * sin (b p r)) (grid H W))%R) by reflexivity.
  f_equal.
  - rewrite (rsum_ext _ (fun p => rsum (fun r => s * (f (snd r) (fst r) * (cos (b p r) * cos (a p) + sin (b p r) * sin (a p))))%R (grid H W))).
    2:{ intros p _; rewrite RE, IM; fold (a p).
        rewrite Rmult_assoc, (Rmult_comm (rsum _ _) (cos (a p))), <- rsum_scale, <- rsum_scale.
        rewrite Rmult_assoc, (Rmult_comm (rsum _ _) (sin (a p))), <- rsum_scale, <- rsum_scale, <- rsum_sub.
        apply rsum_ext; intros r _; ring. }
    rewrite rsum_swap, (rsum_ext _ (fun r => (s * INR (W * H) * f (snd r) (fst r)) * (del x (snd r) * del y (fst r)))%R).
    + rewrite (rsum_grid_del (fun y x => s * INR (W * H) * f x y)%R) by auto.
      transitivity (s * s * INR (W * H) * f x y)%R; [ring | rewrite S2; ring].
    + intros r Hr; rewrite !rsum_scale; destruct (O r Hr) as [-> _]; ring.
  - rewrite (rsum_ext _ (fun p => rsum (fun r => s * (f (snd r) (fst r) * (cos (b p r) * sin (a p) - sin (b p r) * cos (a p))))%R (grid H W))).
    2:{ intros p _; rewrite RE, IM; fold (a p).
        rewrite Rmult_assoc, (Rmult_comm (rsum _ _) (sin (a p))), <- rsum_scale, <- rsum_scale.
        rewrite Rmult_assoc, (Rmult_comm (rsum _ _) (cos (a p))), <- rsum_scale, <- rsum_scale, <- rsum_add.
        apply rsum_ext; intros r _; ring. }
    rewrite rsum_swap, rsum_zero; [ring|].
    intros r Hr; rewrite !rsum_scale; destruct (O r Hr) as [_ ->]; ring.
Qed.

(** energy *)
Lemma dft_energy W H f :
  rsum (fun p => dft_re W H f (snd p) (fst p) * dft_re W H f (snd p) (fst p) + dft_im W H f (snd p) (fst p) * dft_im W H f (snd p) (fst p))%R (grid H W)
  = rsum (fun p => f (snd p) (fst p) * f (snd p) (fst p))%R (grid H W).
Proof.
  set (s := sqrt (1 / INR (W * H))).
  set (b := fun (p r : nat * nat) => (2 * PI * (INR (snd p) * INR (snd r) / INR W + INR (fst p) * INR (fst r) / INR H))%R).
  set (re := fun p => dft_re W H f (snd p) (fst p)); set (im := fun p => dft_im W H f (snd p) (fst p)).
  change (rsum (fun p => re p * re p + im p * im p)%R (grid H W) = rsum (fun p => f (snd p) (fst p) * f (snd p) (fst p))%R (grid H W)).
  rewrite (rsum_ext _ (fun p => rsum (fun r => f (snd r) (fst r) * (s * (re p * cos (b p r) - im p * sin (b p r))))%R (grid H W))).
  - rewrite rsum_swap; apply rsum_ext; intros r Hr; apply in_grid in Hr.
    rewrite rsum_scale, rsum_scale; f_equal.
    pose proof (idft_dft_value W H f (snd r) (fst r) ltac:(lia) ltac:(lia)) as E; apply (f_equal fst) in E; cbn [fst snd] in E.
    rewrite <- E; unfold idft_value; cbv zeta; cbn [fst snd]; fold s; f_equal; apply rsum_ext; intros p _; fold (re p) (im p).
    unfold b; rewrite (Rmult_comm (INR (snd r))), (Rmult_comm (INR (fst r))); auto.
  - intros p _.
    transitivity (re p * (s * rsum (fun r => f (snd r) (fst r) * cos (b p r)) (grid H W)) + im p * (s * rsum (fun r => - f (snd r) (fst r) * sin (b p r)) (grid H W)))%R; [reflexivity|].
    rewrite <- !rsum_scale, <- rsum_add; apply rsum_ext; intros r _; ring.
Qed.
