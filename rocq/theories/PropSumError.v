(** PropSumError.v - property C186: how far the rounded sum of a picture of doubles is from the exact sum, for every order and
    grouping.  The specification uses real numbers only. *)
From Coq Require Import ZArith Reals Bool List Lia Lra Psatz Permutation ZifyBool.
From Verif Require Import Base ImageModel ImageFacts ColourProofs FloatModel FloatProofs RoundModel RoundProofs PropRound HueModel PropHue.
Import ListNotations.
Open Scope Z_scope.

(** ** the error of one addition *)
Lemma double_units s k j : 2 ^ 52 <= k < 2 ^ 53 -> 0 <= j <= 2045 -> double (signed_by s (IZR (k * 2 ^ j) * unit_)).
Proof.
  intros K J; set (b := (if s then 2 ^ 63 else 0) + (j + 1) * 2 ^ 52 + (k - 2 ^ 52)).
  assert (F : fields b s (j + 1) (k - 2 ^ 52)) by (unfold fields, b; change (2 ^ 11) with 2048; change (2 ^ 63) with 9223372036854775808; change (2 ^ 52) with 4503599627370496 in *; change (2 ^ 53) with 9007199254740992 in K; destruct s; repeat split; lia).
  pose proof (means_normal _ _ _ _ F ltac:(lia)) as M; exists b.
  replace (signed_by s (IZR (k * 2 ^ j) * unit_)) with (signed_by s (IZR (2 ^ 52 + (k - 2 ^ 52)) * powerRZ 2 (j + 1 - 1075))); [exact M|].
  f_equal; replace (2 ^ 52 + (k - 2 ^ 52)) with k by ring; rewrite mult_IZR, IZR_pow2, Rmult_assoc by lia; unfold unit_; rewrite <- pw_add; f_equal; f_equal; ring.
Qed.
Lemma double_sub s k : 0 <= k < 2 ^ 52 -> double (signed_by s (IZR k * unit_)).
Proof.
  intros K; set (b := (if s then 2 ^ 63 else 0) + k).
  assert (F : fields b s 0 k) by (unfold fields, b; change (2 ^ 11) with 2048; change (2 ^ 63) with 9223372036854775808; change (2 ^ 52) with 4503599627370496 in *; destruct s; repeat split; lia).
  exists b; exact (means_small _ _ _ F).
Qed.
(** a double near a number of units *)
Lemma units_near s n : 0 <= n -> (IZR n * unit_ < too_large)%R ->
  exists y, double y /\ (Rabs (signed_by s (IZR n * unit_) - y) <= powerRZ 2 (-53) * (IZR n * unit_))%R.
Proof.
  intros N L; pose proof unit_pos as U; pose proof (pw_pos (-53)) as P53; assert (N0 : (0 <= IZR n)%R) by (apply IZR_le; lia).
  assert (Z0 : (0 <= powerRZ 2 (-53) * (IZR n * unit_))%R) by (apply Rmult_le_pos; [lra|apply Rmult_le_pos; lra]).
  destruct (Z_lt_ge_dec n (2 ^ 52)) as [S|S].
  { exists (signed_by s (IZR n * unit_)); split; [apply double_sub; lia|rewrite abs_self; exact Z0]. }
  rewrite too_large_units in L; assert (LZ : n < 2 ^ 2098 - 2 ^ 2044) by (apply lt_IZR; apply Rmult_lt_reg_r with unit_; lra); clear L.
  pose proof (Z.log2_spec n ltac:(lia)) as LS; set (l := Z.log2 n) in *.
  assert (L0 : 52 <= l) by (assert (l0 : 0 <= l) by apply Z.log2_nonneg; apply Z.lt_succ_r; apply (proj2 (Z.pow_lt_mono_r_iff 2 52 (Z.succ l) ltac:(lia) ltac:(lia))); lia).
  assert (L1 : l < 2098) by (assert (0 < 2 ^ 2044) by (apply Z.pow_pos_nonneg; lia); apply (proj2 (Z.pow_lt_mono_r_iff 2 l 2098 ltac:(lia) ltac:(lia))); set (t := 2 ^ 2044) in *; set (t2 := 2 ^ 2098) in *; clearbody t t2; lia).
  set (j := l - 52) in *; assert (J : 0 <= j <= 2045) by lia.
  assert (P : 0 < 2 ^ j) by (apply Z.pow_pos_nonneg; lia).
  assert (E0 : 2 ^ l = 2 ^ 52 * 2 ^ j) by (rewrite <- Z.pow_add_r by lia; f_equal; lia).
  assert (E1 : 2 ^ Z.succ l = 2 ^ 53 * 2 ^ j) by (rewrite <- Z.pow_add_r by lia; f_equal; lia).
  rewrite E0, E1 in LS; pose proof (Z.div_mod n (2 ^ j) ltac:(lia)) as DM; pose proof (Z.mod_pos_bound n (2 ^ j) P) as MB.
  set (k := n / 2 ^ j) in *; set (m := n mod 2 ^ j) in *; rewrite (Z.mul_comm (2 ^ j)) in DM.
  assert (K : 2 ^ 52 <= k < 2 ^ 53) by (unfold k; split; [apply Z.div_le_lower_bound; lia|apply Z.div_lt_upper_bound; lia]).
  assert (near : forall q, 2 * Z.abs (n - q) <= 2 ^ j -> (Rabs (signed_by s (IZR n * unit_) - signed_by s (IZR q * unit_)) <= powerRZ 2 (-53) * (IZR n * unit_))%R).
  { intros q Q; replace (Rabs (signed_by s (IZR n * unit_) - signed_by s (IZR q * unit_))) with (IZR (Z.abs (n - q)) * unit_)%R.
    2:{ rewrite abs_IZR, minus_IZR, <- (Rabs_right unit_) at 1 by lra; rewrite <- Rabs_mult; unfold signed_by; destruct s; [rewrite <- Rabs_Ropp|]; f_equal; ring. }
    rewrite <- Rmult_assoc; apply Rmult_le_compat_r; [lra|]; pose proof (pw2 53 ltac:(lia)) as W; change (- (53)) with (-53) in W.
    assert (T : 2 ^ 53 * Z.abs (n - q) <= n) by (change (2 ^ 53) with (2 ^ 52 * 2); lia).
    apply IZR_le in T; rewrite mult_IZR in T; replace (IZR (Z.abs (n - q))) with (powerRZ 2 (-53) * (IZR (2 ^ 53) * IZR (Z.abs (n - q))))%R; [apply Rmult_le_compat_l; lra|].
    rewrite <- Rmult_assoc, W; ring. }
  destruct (Z_le_gt_dec (2 * m) (2 ^ j)) as [H|H].
  - exists (signed_by s (IZR (k * 2 ^ j) * unit_)); split; [apply double_units; lia|apply near; lia].
  - destruct (Z_lt_ge_dec (k + 1) (2 ^ 53)) as [C|C].
    + exists (signed_by s (IZR ((k + 1) * 2 ^ j) * unit_)); split; [apply double_units; lia|apply near; lia].
    + assert (K1 : k + 1 = 2 ^ 53) by lia; assert (J2 : j <= 2044).
      { destruct (Z.eq_dec j 2045) as [EJ|]; [exfalso|lia]; rewrite EJ in *; assert (k = 2 ^ 53 - 1) by lia; 
        change (2 ^ 2098) with (2 ^ 53 * (2 * 2 ^ 2044)) in LZ; change (2 ^ 2045) with (2 * 2 ^ 2044) in *; clear - H LZ DM H0 P; set (t := 2 ^ 2044) in *; clearbody t; nia. }
      exists (signed_by s (IZR (2 ^ 52 * 2 ^ (j + 1)) * unit_)); split; [apply double_units; lia|apply near].
      replace (2 ^ 52 * 2 ^ (j + 1)) with ((k + 1) * 2 ^ j); [lia|]; rewrite K1; replace (j + 1) with (1 + j) by ring; rewrite (Z.pow_add_r 2 1 j), Z.mul_assoc by lia; reflexivity.
Qed.
Definition u : R := powerRZ 2 (-53).
Lemma u_value : (0 < u)%R /\ (u * IZR (2 ^ 53) = 1)%R.
Proof. split; [apply pw_pos|exact (pw2 53 ltac:(lia))]. Qed.
Lemma units_error n c z : rounds (IZR n * unit_) c -> means c (Fin z) -> (Rabs (IZR n * unit_ - z) <= u * Rabs (IZR n * unit_))%R.
Proof.
  intros R Mc; assert (D : dround (IZR n * unit_) z) by (exists c; auto).
  assert (S : (Rabs (IZR n * unit_) < too_large)%R).
  { unfold rounds in R; destruct (Rlt_dec _ _) as [S|S]; [exact S|]; pose proof (means_inj _ _ _ R Mc); discriminate. }
  pose proof unit_pos as U.
  assert (A : (Rabs (IZR n * unit_) = IZR (Z.abs n) * unit_)%R) by (rewrite Rabs_mult, abs_IZR, (Rabs_right unit_) by lra; reflexivity).
  rewrite A in *; destruct (units_near (n <? 0) (Z.abs n) ltac:(lia) S) as (w & Dw & W).
  replace (signed_by (n <? 0) (IZR (Z.abs n) * unit_)) with (IZR n * unit_)%R in W.
  2:{ unfold signed_by; destruct (n <? 0) eqn:E; [rewrite Z.abs_neq, opp_IZR by lia; ring|rewrite Z.abs_eq by lia; reflexivity]. }
  eapply Rle_trans; [apply (dround_near _ z w Dw D)|exact W].
Qed.
Lemma add_error a b c x y z : means a (Fin x) -> means b (Fin y) -> rounds (x + y) c -> means c (Fin z) -> (Rabs (x + y - z) <= u * Rabs (x + y))%R.
Proof.
  intros Ma Mb R Mc; apply means_fin_key in Ma, Mb; destruct Ma as (_ & _ & ->), Mb as (_ & _ & ->).
  rewrite <- Rmult_plus_distr_r, <- plus_IZR in *; exact (units_error _ _ _ R Mc).
Qed.
Lemma sub_error a b c x y z : means a (Fin x) -> means b (Fin y) -> rounds (x - y) c -> means c (Fin z) -> (Rabs (x - y - z) <= u * Rabs (x - y))%R.
Proof.
  intros Ma Mb R Mc; apply means_fin_key in Ma, Mb; destruct Ma as (_ & _ & ->), Mb as (_ & _ & ->).
  rewrite <- Rmult_minus_distr_r, <- minus_IZR in *; exact (units_error _ _ _ R Mc).
Qed.

(** ** the error of a sum *)
Definition value (b : bits) : R := match meaning b with Fin x => x | _ => 0%R end.
Lemma value_means b x : means b (Fin x) -> value b = x.
Proof. intros M; unfold value; pose proof (means_pattern _ _ M) as P; apply means_meaning in M; [|exact P]; rewrite <- M; reflexivity. Qed.
Definition finite (b : bits) : Prop := exists x, means b (Fin x).
Definition rsum (xs : list R) : R := fold_right Rplus 0%R xs.
Lemma rsum_app l m : rsum (l ++ m) = (rsum l + rsum m)%R.
Proof. unfold rsum; induction l as [|a l IH]; cbn [app fold_right]; lra. Qed.
Lemma rsum_perm l m : Permutation l m -> rsum l = rsum m.
Proof. unfold rsum; induction 1; cbn [fold_right] in *; lra. Qed.
Lemma rsum_abs l : (Rabs (rsum l) <= rsum (map Rabs l))%R.
Proof.
  unfold rsum; induction l as [|a l IH]; cbn [map fold_right]; [rewrite Rabs_R0; lra|].
  eapply Rle_trans; [apply Rabs_triang|]; lra.
Qed.
Lemma rsum_nonneg l : (0 <= rsum (map Rabs l))%R.
Proof. eapply Rle_trans; [apply Rabs_pos|apply rsum_abs]. Qed.
Lemma pow_u n : (1 <= (1 + u) ^ n)%R.
Proof. destruct u_value; apply pow_R1_Rle; lra. Qed.
Lemma pow_u_mono n m : (n <= m)%nat -> ((1 + u) ^ n <= (1 + u) ^ m)%R.
Proof. destruct u_value as [U _]; intros H; apply Rle_pow; [lra|exact H]. Qed.
Lemma sums_nonempty l r : sums l r -> (1 <= length l)%nat.
Proof. induction 1 as [a|l l1 l2 a b c P _ I1 _ I2 _]; [cbn; lia|]; rewrite (Permutation_length P), app_length; lia. Qed.
(** one more addition *)
Lemma step_error y1 y2 y s1 s2 t1 t2 q p : (Rabs (y1 - s1) <= (q - 1) * t1)%R -> (Rabs (y2 - s2) <= (q - 1) * t2)%R -> (Rabs s1 <= t1)%R -> (Rabs s2 <= t2)%R ->
  (Rabs (y1 + y2 - y) <= u * Rabs (y1 + y2))%R -> ((1 + u) * q <= p)%R -> (Rabs (y - (s1 + s2)) <= (p - 1) * (t1 + t2))%R /\ (Rabs (y1 + y2) <= q * (t1 + t2))%R.
Proof.
  intros H1 H2 S1 S2 H Q; destruct u_value as [U _]; pose proof (Rabs_pos s1); pose proof (Rabs_pos s2).
  assert (A : (Rabs (y1 + y2) <= q * (t1 + t2))%R).
  { replace (y1 + y2)%R with ((y1 - s1) + (y2 - s2) + (s1 + s2))%R by ring; eapply Rle_trans; [apply Rabs_triang|]; eapply Rle_trans; [apply Rplus_le_compat; apply Rabs_triang|]; lra. }
  split; [|exact A]; replace (y - (s1 + s2))%R with (- (y1 + y2 - y) + ((y1 - s1) + (y2 - s2)))%R by ring.
  eapply Rle_trans; [apply Rabs_triang|]; rewrite Rabs_Ropp; eapply Rle_trans; [apply Rplus_le_compat_l, Rabs_triang|].
  apply Rle_trans with (u * (q * (t1 + t2)) + ((q - 1) * t1 + (q - 1) * t2))%R; [assert (u * Rabs (y1 + y2) <= u * (q * (t1 + t2)))%R by (apply Rmult_le_compat_l; lra); lra|].
  replace (u * (q * (t1 + t2)) + ((q - 1) * t1 + (q - 1) * t2))%R with (((1 + u) * q - 1) * (t1 + t2))%R by ring; apply Rmult_le_compat_r; lra.
Qed.
Lemma sums_error l r : sums l r -> Forall finite l -> forall y, means r (Fin y) ->
  (Rabs (y - rsum (map value l)) <= ((1 + u) ^ (length l - 1) - 1) * rsum (map Rabs (map value l)))%R.
Proof.
  induction 1 as [a|l l1 l2 a b c P S1 IH1 S2 IH2 D]; intros F y M.
  { cbn; rewrite (value_means a y M), Rplus_0_r, abs_self; lra. }
  apply (Permutation_Forall P) in F; apply Forall_app in F; destruct F as [F1 F2].
  destruct D as (v & w & Mv & Mw & R); assert (V : exists x1 x2, v = Fin x1 /\ w = Fin x2).
  { destruct v, w; eauto; cbn [plus_number rounded] in R; try (destruct (Bool.eqb _ _); cbn [rounded] in R); pose proof (means_inj _ _ _ R M); discriminate. }
  destruct V as (y1 & y2 & -> & ->); cbn [plus_number rounded] in R; pose proof (add_error _ _ _ _ _ _ Mv Mw R M) as E.
  specialize (IH1 F1 _ Mv); specialize (IH2 F2 _ Mw); pose proof (sums_nonempty _ _ S1) as N1; pose proof (sums_nonempty _ _ S2) as N2.
  pose proof (Permutation_map value P) as PV; rewrite (rsum_perm _ _ PV), (rsum_perm _ _ (Permutation_map Rabs PV)), (Permutation_length P), app_length, !map_app, !rsum_app.
  pose proof (rsum_nonneg (map value l1)) as T1; pose proof (rsum_nonneg (map value l2)) as T2.
  set (q := ((1 + u) ^ (Nat.max (length l1 - 1) (length l2 - 1)))%R).
  assert (Q1 : ((1 + u) ^ (length l1 - 1) <= q)%R) by (apply pow_u_mono; lia); assert (Q2 : ((1 + u) ^ (length l2 - 1) <= q)%R) by (apply pow_u_mono; lia).
  refine (proj1 (step_error y1 y2 y _ _ _ _ q _ _ _ (rsum_abs _) (rsum_abs _) E _)).
  - eapply Rle_trans; [exact IH1|]; apply Rmult_le_compat_r; lra.
  - eapply Rle_trans; [exact IH2|]; apply Rmult_le_compat_r; lra.
  - change ((1 + u) * q)%R with ((1 + u) ^ S (Nat.max (length l1 - 1) (length l2 - 1)))%R; apply pow_u_mono; lia.
Qed.
(** a short bound *)
Lemma pow_linear n : (Z.of_nat n <= 2 ^ 52)%Z -> ((1 + u) ^ n - 1 <= IZR (Z.of_nat n) * powerRZ 2 (-52))%R.
Proof.
  assert (V : (powerRZ 2 (-52) = 2 * u)%R) by (change (-52) with (1 + -53); rewrite pw_add, powerRZ_1; reflexivity); rewrite V; destruct u_value as [U0 U1].
  induction n as [|n IH]; intros H; [cbn; lra|]; specialize (IH ltac:(lia)); cbn [pow]; rewrite Nat2Z.inj_succ, <- Z.add_1_r, plus_IZR.
  assert (B : (0 <= IZR (Z.of_nat n) <= IZR (2 ^ 52))%R) by (split; apply IZR_le; lia); set (k := IZR (Z.of_nat n)) in *; set (p := ((1 + u) ^ n)%R) in *.
  change (2 ^ 53) with (2 * 2 ^ 52) in U1; rewrite mult_IZR in U1; assert (k * u <= / 2)%R by nra; nra.
Qed.
Lemma values_of l xs : Forall2 (fun b x => means b (Fin x)) l xs -> Forall finite l /\ map value l = xs.
Proof.
  induction 1 as [|b x l xs M _ [F E]]; [split; constructor|]; split; [constructor; [exists x; exact M|exact F]|]; cbn [map]; rewrite (value_means _ _ M), E; reflexivity.
Qed.
Lemma sum_bound (im : image bits) xs : Forall2 (fun b x => means b (Fin x)) (pix im) xs -> forall r y, dsum im r -> means r (Fin y) ->
  (Rabs (y - rsum xs) <= ((1 + u) ^ (length (pix im)) - 1) * rsum (map Rabs xs))%R.
Proof.
  intros H r y S M; destruct (values_of _ _ H) as [F E]; assert (Z0 : means 0 (Fin 0)) by (apply (bits_of_int_means 0); lia).
  pose proof (sums_error _ _ S (Forall_cons _ (ex_intro _ 0%R Z0) F) y M) as B; cbn [map length rsum fold_right] in B; fold (rsum (map value (pix im))) (rsum (map Rabs (map value (pix im)))) in B.
  rewrite E, (value_means _ _ Z0), Rabs_R0, !Rplus_0_l, Nat.sub_succ, Nat.sub_0_r in B; exact B.
Qed.
(** every sum, whatever the order and grouping, is within n / 2^52 of the sum of the magnitudes of the n pixels *)
Theorem C186_sum (im : image bits) xs : Forall2 (fun b x => means b (Fin x)) (pix im) xs -> Z.of_nat (length (pix im)) <= 2 ^ 52 ->
  forall r y, dsum im r -> means r (Fin y) ->
  (Rabs (y - fold_right Rplus 0 xs) <= IZR (Z.of_nat (length (pix im))) * powerRZ 2 (-52) * fold_right Rplus 0 (map Rabs xs))%R.
Proof.
  intros H N r y S M; eapply Rle_trans; [apply (sum_bound im xs H r y S M)|]; apply Rmult_le_compat_r; [apply rsum_nonneg|apply pow_linear, N].
Qed.
Print Assumptions C186_sum.
(** so two results differ by at most twice as much *)
Theorem C186_order (im : image bits) xs : Forall2 (fun b x => means b (Fin x)) (pix im) xs -> Z.of_nat (length (pix im)) <= 2 ^ 52 ->
  forall r y r' y', dsum im r -> means r (Fin y) -> dsum im r' -> means r' (Fin y') ->
  (Rabs (y - y') <= IZR (Z.of_nat (length (pix im))) * powerRZ 2 (-51) * fold_right Rplus 0 (map Rabs xs))%R.
Proof.
  intros H N r y r' y' S M S' M'; pose proof (C186_sum im xs H N r y S M) as E; pose proof (C186_sum im xs H N r' y' S' M') as E'.
  assert (V : (powerRZ 2 (-51) = 2 * powerRZ 2 (-52))%R) by (change (-51) with (1 + -52); rewrite pw_add, powerRZ_1; reflexivity); rewrite V.
  apply Rabs_le_inv in E, E'; apply Rabs_le; lra.
Qed.
Print Assumptions C186_order.
(** if no pixel is negative the relative error is at most n / 2^52 *)
Theorem C186_relative (im : image bits) xs : Forall2 (fun b x => means b (Fin x)) (pix im) xs -> Z.of_nat (length (pix im)) <= 2 ^ 52 -> Forall (fun x => 0 <= x)%R xs ->
  forall r y, dsum im r -> means r (Fin y) ->
  (Rabs (y - fold_right Rplus 0 xs) <= IZR (Z.of_nat (length (pix im))) * powerRZ 2 (-52) * fold_right Rplus 0 xs)%R.
Proof.
  intros H N P r y S M; pose proof (C186_sum im xs H N r y S M) as E; replace (map Rabs xs) with xs in E; [exact E|].
  clear - P; induction P as [|x l X _ IH]; cbn [map]; [reflexivity|]; rewrite Rabs_right by lra; congruence.
Qed.
Print Assumptions C186_relative.
(** no sum overflows if the magnitudes add up to at most 2^1022 *)
Lemma sums_finite l r : sums l r -> Forall finite l -> (Z.of_nat (length l) <= 2 ^ 52)%Z -> (rsum (map Rabs (map value l)) <= powerRZ 2 1022)%R -> finite r.
Proof.
  induction 1 as [a|l l1 l2 a b c P S1 IH1 S2 IH2 D]; intros F N T.
  { inversion F; assumption. }
  apply (Permutation_Forall P) in F; apply Forall_app in F; destruct F as [F1 F2].
  pose proof (Permutation_map value P) as PV; rewrite (rsum_perm _ _ (Permutation_map Rabs PV)), !map_app, rsum_app in T; rewrite (Permutation_length P), app_length in N.
  pose proof (rsum_nonneg (map value l1)) as T1; pose proof (rsum_nonneg (map value l2)) as T2.
  destruct (IH1 F1 ltac:(lia) ltac:(lra)) as [y1 M1], (IH2 F2 ltac:(lia) ltac:(lra)) as [y2 M2].
  pose proof (sums_error _ _ S1 F1 _ M1) as E1; pose proof (sums_error _ _ S2 F2 _ M2) as E2.
  assert (half : forall k, Z.of_nat k <= 2 ^ 52 -> ((1 + u) ^ (k - 1) - 1 <= 1)%R).
  { intros k K; eapply Rle_trans; [apply pow_linear; lia|]; pose proof (pw2 52 ltac:(lia)) as W; change (- (52)) with (-52) in W; pose proof (pw_pos (-52)).
    rewrite <- W, Rmult_comm; apply Rmult_le_compat_l; [lra|apply IZR_le; lia]. }
  pose proof (half (length l1) ltac:(lia)) as H1; pose proof (half (length l2) ltac:(lia)) as H2; pose proof (rsum_abs (map value l1)) as A1; pose proof (rsum_abs (map value l2)) as A2.
  assert (B1 : (Rabs y1 <= 2 * rsum (map Rabs (map value l1)))%R).
  { replace y1 with ((y1 - rsum (map value l1)) + rsum (map value l1))%R by ring; eapply Rle_trans; [apply Rabs_triang|]; nra. }
  assert (B2 : (Rabs y2 <= 2 * rsum (map Rabs (map value l2)))%R).
  { replace y2 with ((y2 - rsum (map value l2)) + rsum (map value l2))%R by ring; eapply Rle_trans; [apply Rabs_triang|]; nra. }
  destruct D as (v & w & Mv & Mw & R); pose proof (means_inj _ _ _ Mv M1) as ->; pose proof (means_inj _ _ _ Mw M2) as ->; cbn [plus_number rounded] in R.
  assert (S : (Rabs (y1 + y2) < too_large)%R).
  { eapply Rle_lt_trans; [apply Rabs_triang|]; apply Rle_lt_trans with (2 * powerRZ 2 1022)%R; [lra|]; unfold too_large.
    assert (V : (powerRZ 2 1024 = 4 * powerRZ 2 1022)%R) by (change 4%R with (IZR (2 ^ 2)); rewrite IZR_pow2, <- pw_add by lia; reflexivity).
    assert (W : (powerRZ 2 970 <= powerRZ 2 1022)%R) by (apply pw_mono; lia); pose proof (pw_pos 1022); generalize dependent (powerRZ 2 1022); generalize (powerRZ 2 1024) (powerRZ 2 970); intros; lra. }
  destruct (rounds_fin _ _ S R) as (y & My & _); exists y; exact My.
Qed.
Theorem C186_finite (im : image bits) xs : Forall2 (fun b x => means b (Fin x)) (pix im) xs -> Z.of_nat (length (pix im)) < 2 ^ 52 ->
  (fold_right Rplus 0 (map Rabs xs) <= powerRZ 2 1022)%R -> forall r, dsum im r -> exists y, means r (Fin y).
Proof.
  intros H N T r S; destruct (values_of _ _ H) as [F E]; assert (Z0 : means 0 (Fin 0)) by (apply (bits_of_int_means 0); lia).
  apply (sums_finite _ _ S); [constructor; [exists 0%R; exact Z0|exact F]|cbn [length]; lia|].
  cbn [map rsum fold_right]; rewrite E, (value_means _ _ Z0), Rabs_R0, Rplus_0_l; exact T.
Qed.
Print Assumptions C186_finite.

(** ** the mean *)
Lemma round_error x b y : rounds x b -> means b (Fin y) -> (Rabs (x - y) <= u * Rabs x + unit_)%R.
Proof.
  intros R M; assert (D : dround x y) by (exists b; auto).
  assert (S : (Rabs x < too_large)%R).
  { unfold rounds in R; destruct (Rlt_dec _ _) as [S|S]; [exact S|]; pose proof (means_inj _ _ _ R M); discriminate. }
  pose proof unit_pos as U; pose proof (Int_part_bounds (Rabs x / unit_)) as B; set (n := Int_part (Rabs x / unit_)) in *.
  assert (X : (Rabs x / unit_ * unit_ = Rabs x)%R) by (field; lra).
  assert (B1 : (IZR n * unit_ <= Rabs x < IZR n * unit_ + unit_)%R) by (set (q := (Rabs x / unit_)%R) in *; clearbody q; nra).
  pose proof (Rabs_pos x) as A0; assert (N : 0 <= n) by (assert (-1 < n); [apply lt_IZR; nra|lia]).
  set (s := if Rlt_dec x 0 then true else false); destruct (units_near s n N ltac:(lra)) as (w & Dw & W); fold u in W; destruct u_value as [U0 _].
  eapply Rle_trans; [apply (dround_near x y w Dw D)|]; replace (x - w)%R with ((x - signed_by s (IZR n * unit_)) + (signed_by s (IZR n * unit_) - w))%R by ring.
  eapply Rle_trans; [apply Rabs_triang|]; assert (E : (Rabs (x - signed_by s (IZR n * unit_)) <= unit_)%R).
  { unfold s, signed_by; destruct (Rlt_dec x 0) as [L|L]; [rewrite (Rabs_left x) in B1 by lra|rewrite (Rabs_right x) in B1 by lra]; apply Rabs_le; lra. }
  assert (u * (IZR n * unit_) <= u * Rabs x)%R by (apply Rmult_le_compat_l; lra); lra.
Qed.
(** the mean is within 2^-51 of the sum of the magnitudes (and one smallest double) of the exact mean *)
Theorem C186_mean (im : image bits) xs : wf im -> Forall2 (fun b x => means b (Fin x)) (pix im) xs -> 0 < Z.of_nat (length (pix im)) <= 2 ^ 52 ->
  forall r y, dmean im r -> means r (Fin y) ->
  (Rabs (y - fold_right Rplus 0 xs / IZR (Z.of_nat (length (pix im)))) <= powerRZ 2 (-51) * fold_right Rplus 0 (map Rabs xs) + powerRZ 2 (-1074))%R.
Proof.
  intros WF H N r y (s & n & S & Rn & D) M; fold unit_; replace (count im) with (length (pix im)) in Rn by exact WF.
  set (k := Z.of_nat (length (pix im))) in *; destruct (int_double k ltac:(lia)) as [nb Mn]; apply (rounds_exact _ nb) in Rn; [|exact Mn].
  destruct D as [x z Ms Mz Z0 R|q z Ms Mz Z0 R|Ms Mz R|Ms R]; [|pose proof (means_inj _ _ _ R M); discriminate|pose proof (means_inj _ _ _ R M); discriminate|pose proof (means_inj _ _ _ R M); discriminate].
  pose proof (means_inj _ _ _ Mz Rn) as Q; injection Q as ->; pose proof (round_error _ _ _ R M) as E; pose proof (C186_sum im xs H ltac:(fold k; lia) s x S Ms) as ES; fold k in ES.
  pose proof (rsum_abs xs) as AS; unfold rsum in AS; set (T := fold_right Rplus 0%R (map Rabs xs)) in *; set (X := fold_right Rplus 0%R xs) in *.
  assert (T0 : (0 <= T)%R) by (pose proof (Rabs_pos X); lra).
  assert (V : (powerRZ 2 (-52) = 2 * u)%R) by (change (-52) with (1 + -53); rewrite pw_add, powerRZ_1; reflexivity).
  assert (V1 : (powerRZ 2 (-51) = 4 * u)%R) by (change (-51) with (1 + -52); rewrite pw_add, powerRZ_1, V; ring).
  destruct u_value as [U0 U1]; assert (K : (1 <= IZR k <= IZR (2 ^ 52))%R) by (split; apply IZR_le; lia).
  change (2 ^ 53) with (2 * 2 ^ 52) in U1; rewrite mult_IZR in U1; rewrite V in ES; rewrite V1; clear V V1.
  assert (KU : (IZR k * (2 * u) <= 1)%R) by nra.
  assert (I : (IZR k * / IZR k = 1)%R) by (field; lra); assert (J : (0 < / IZR k <= 1)%R) by (split; [apply Rinv_0_lt_compat; lra|rewrite <- Rinv_1; apply Rinv_le_contravar; lra]).
  set (c := (/ IZR k)%R) in *; unfold Rdiv in *; fold c in E |- *; set (m := IZR k) in *.
  assert (B1 : (Rabs (x * c - X * c) <= 2 * u * T)%R).
  { replace (x * c - X * c)%R with ((x - X) * c)%R by ring; rewrite Rabs_mult, (Rabs_right c) by lra.
    apply Rle_trans with (m * (2 * u) * T * c)%R; [apply Rmult_le_compat_r; lra|]; replace (m * (2 * u) * T * c)%R with (2 * u * T * (m * c))%R by ring; rewrite I; lra. }
  assert (XA : (Rabs x <= 2 * T)%R).
  { replace x with ((x - X) + X)%R by ring; eapply Rle_trans; [apply Rabs_triang|]; assert (m * (2 * u) * T <= 1 * T)%R by (apply Rmult_le_compat_r; lra); lra. }
  assert (B2 : (u * Rabs (x * c) <= 2 * u * T)%R).
  { rewrite Rabs_mult, (Rabs_right c) by lra; assert (Rabs x * c <= 2 * T * 1)%R by (apply Rmult_le_compat; try lra; apply Rabs_pos); nra. }
  replace (y - X * c)%R with (- (x * c - y) + (x * c - X * c))%R by ring; eapply Rle_trans; [apply Rabs_triang|]; rewrite Rabs_Ropp; lra.
Qed.
Print Assumptions C186_mean.
(** ** += and -= *)
(** += and then -= gives every pixel back to within 3 / 2^53 of the magnitudes of the two pixels *)
Theorem C186_undo (x y s t : image bits) : wf x -> wf y -> dplus_assign x y (Ok s) -> dminus_assign s y (Ok t) ->
  dims t = dims x /\ forall i a b c p q r, nth_error (pix x) i = Some a -> nth_error (pix y) i = Some b -> nth_error (pix t) i = Some c ->
    means a (Fin p) -> means b (Fin q) -> means c (Fin r) -> (Rabs (r - p) <= 3 * powerRZ 2 (-53) * (Rabs p + Rabs q))%R.
Proof.
  intros Wx Wy S T; unfold dplus_assign, dminus_assign, combined, size_eqb in S, T.
  destruct (list_eq_dec Nat.eq_dec (dims y) (dims x)) as [E|E]; [|discriminate]; destruct S as (v & Lv & Q & Nv); injection Q as ->; cbn [dims pix] in T.
  destruct (list_eq_dec Nat.eq_dec (dims y) (dims x)) as [E'|E']; [|discriminate]; destruct T as (w & Lw & Q & Nw); injection Q as ->; cbn [dims pix].
  split; [reflexivity|]; intros i a b c p q r Na Nb Nc Ma Mb Mc.
  destruct (Nv i a b Na Nb) as (d & Nd & (v1 & w1 & M1 & M2 & R)); destruct (Nw i d b Nd Nb) as (c' & Nc' & (v2 & w2 & M3 & M4 & R')).
  rewrite Nc in Nc'; injection Nc' as <-; pose proof (means_inj _ _ _ M1 Ma) as ->; pose proof (means_inj _ _ _ M2 Mb) as ->; pose proof (means_inj _ _ _ M4 Mb) as ->; cbn [plus_number rounded opp_number] in R, R'.
  assert (V : exists z, v2 = Fin z) by (destruct v2; eauto; cbn [plus_number rounded] in R'; pose proof (means_inj _ _ _ R' Mc); discriminate).
  destruct V as [z ->]; cbn [plus_number rounded] in R'; pose proof (add_error _ _ _ _ _ _ Ma Mb R M3) as E1; pose proof (sub_error _ _ _ _ _ _ M3 Mb R' Mc) as E2.
  fold u; destruct u_value as [U0 U1]; assert (U2 : (u <= 1)%R) by (assert (1 <= IZR (2 ^ 53))%R by (apply (IZR_le 1); lia); nra).
  pose proof (Rabs_triang p q) as TR; pose proof (Rabs_pos p) as P0; pose proof (Rabs_pos q) as Q0; pose proof (Rabs_pos (p + q)) as PQ.
  assert (B : (Rabs (z - q) <= Rabs p + u * Rabs (p + q))%R).
  { replace (z - q)%R with (p + - (p + q - z))%R by ring; eapply Rle_trans; [apply Rabs_triang|]; rewrite Rabs_Ropp; lra. }
  replace (r - p)%R with (- (z - q - r) + - (p + q - z))%R by ring; eapply Rle_trans; [apply Rabs_triang|]; rewrite !Rabs_Ropp.
  assert (u * Rabs (z - q) <= u * (Rabs p + 1 * Rabs (p + q)))%R by (apply Rmult_le_compat_l; [lra|]; assert (u * Rabs (p + q) <= 1 * Rabs (p + q))%R by (apply Rmult_le_compat_r; lra); lra).
  assert (u * Rabs (p + q) <= u * (Rabs p + Rabs q))%R by (apply Rmult_le_compat_l; lra); assert (0 <= u * Rabs q)%R by (apply Rmult_le_pos; lra); lra.
Qed.
Print Assumptions C186_undo.
(** a picture of three doubles that are not whole has a sum and a mean, and the theorems apply to it *)
Example C186_case : let im := mkImage [3%nat] [4591870180066957722; 4596373779694328218; 4599075939470750515] in
  exists xs r y, Forall2 (fun b x => means b (Fin x)) (pix im) xs /\ dsum im r /\ means r (Fin y) /\
    (Rabs (y - fold_right Rplus 0 xs) <= 3 * powerRZ 2 (-52) * fold_right Rplus 0 (map Rabs xs))%R /\ (exists m, dmean im m).
Proof.
  intros im; assert (F : forall b, In b (pix im) -> means b (Fin (IZR (key_units b) * unit_))).
  { intros b [<-|[<-|[<-|[]]]]; apply finite_double_means; vm_compute; reflexivity. }
  assert (PT : Forall pattern (pix im)) by (apply Forall_forall; intros b Hb; eapply means_pattern, F, Hb).
  destruct (C184_sum_of_any im PT) as ((r & R) & _).
  set (xs := map (fun b => (IZR (key_units b) * unit_)%R) (pix im)).
  assert (H : Forall2 (fun b x => means b (Fin x)) (pix im) xs) by (unfold xs, im; cbn [pix map]; repeat constructor; apply F; cbn; auto).
  assert (T : (fold_right Rplus 0 (map Rabs xs) <= powerRZ 2 1022)%R).
  { assert (A : forall b, In b (pix im) -> (Rabs (IZR (key_units b) * unit_) <= powerRZ 2 0)%R).
    { intros b Hb; assert (K : Z.abs (key_units b) <= 2 ^ 1074) by (destruct Hb as [<-|[<-|[<-|[]]]]; vm_compute; discriminate).
      apply IZR_le in K; rewrite abs_IZR, (IZR_pow2 1074) in K by lia; pose proof unit_pos; rewrite Rabs_mult, (Rabs_right unit_) by lra.
      replace (powerRZ 2 0) with (powerRZ 2 1074 * unit_)%R by (unfold unit_; rewrite <- pw_add; reflexivity); apply Rmult_le_compat_r; lra. }
    pose proof (A _ (or_introl eq_refl)) as A1; pose proof (A _ (or_intror (or_introl eq_refl))) as A2; pose proof (A _ (or_intror (or_intror (or_introl eq_refl)))) as A3.
    rewrite powerRZ_O in A1, A2, A3; unfold xs, im; cbn [pix map fold_right].
    apply Rle_trans with (IZR (2 ^ 2)); [change (2 ^ 2) with 4; lra|]; rewrite IZR_pow2 by lia; apply pw_mono; lia. }
  destruct (C186_finite im xs H ltac:(cbn; lia) T r R) as [y My]; exists xs, r, y; split; [exact H|]; split; [exact R|]; split; [exact My|].
  split; [exact (C186_sum im xs H ltac:(cbn; lia) r y R My)|].
  destruct (rounds_total (IZR (Z.of_nat (count im)))) as [n Rn]; destruct (rounds_total (y / 3)) as [m Rm]; exists m, r, n; split; [exact R|]; split; [exact Rn|].
  destruct (int_double 3 ltac:(lia)) as [t Mt]; apply (ddiv_fin _ _ _ y 3); [exact My| |lra|exact Rm].
  change (Z.of_nat (count im)) with 3 in Rn; apply (rounds_exact _ t) in Rn; [exact Rn|exact Mt].
Qed.
