(** PropFloat.v - properties C182 and C183: the kinds of doubles, and the comparison of pictures and colours with NaN, infinities and
    both zeros.  The meaning of a bit pattern ([means], FloatProofs.v) is that of IEEE 754 and does not use the model. *)
From Coq Require Import ZArith Reals Bool List Lia Lra ZifyBool Permutation.
From Verif Require Import Base ImageModel ImageFacts PixelModel PixelProofs CommandProofs ArithModel ArithProofs FloatModel FloatProofs.
Import ListNotations.
Open Scope Z_scope.

(** ** C182  the kind of a number *)
(** every pattern means exactly one number *)
Theorem C182_meaning b : pattern b -> exists v, means b v /\ forall v', means b v' -> v' = v.
Proof. intros P; exists (meaning b); split; [apply means_meaning; auto|intros v' H; apply means_meaning in H; auto]. Qed.
Print Assumptions C182_meaning.

Lemma fin_abs b r : pattern b -> means b (Fin r) -> expo b <> 2047 /\ Rabs r = (IZR (units b) * powerRZ 2 (-1074))%R.
Proof.
  intros P H; apply means_meaning in H; [|exact P].
  assert (E : expo b <> 2047) by (intros E; unfold meaning in H; rewrite E in H; cbn - [powerRZ] in H; destruct (frac b =? 0); discriminate).
  split; [exact E|]; rewrite meaning_fin in H by exact E; injection H as ->.
  assert (0 <= IZR (units b) * powerRZ 2 (-1074))%R.
  { apply Rmult_le_pos; [apply IZR_le, units_range|left; apply pw_pos]. }
  unfold signed_by; destruct (sign b); [rewrite Rabs_Ropp|]; apply Rabs_right; lra.
Qed.
Lemma not_fin b : pattern b -> expo b = 2047 -> forall r, ~ means b (Fin r).
Proof. intros P E r H; apply (fin_abs b r P H), E. Qed.
Lemma is_fin b : pattern b -> expo b <> 2047 -> exists r, means b (Fin r).
Proof. intros P E; eexists; apply means_meaning; [exact P|]; rewrite meaning_fin by exact E; reflexivity. Qed.
Lemma abs_low b r : pattern b -> means b (Fin r) -> (powerRZ 2 (-1022) <= Rabs r)%R <-> 2 ^ 52 <= units b.
Proof.
  intros P H; destruct (fin_abs b r P H) as [E ->]; replace (-1022) with (52 + -1074) by reflexivity; rewrite pw_add, <- IZR_pow2 by lia.
  pose proof (scale_lt (units b) (2 ^ 52)); split; intros G.
  - apply Z.nlt_ge; intros C; apply H0 in C; lra.
  - apply Rnot_lt_le; intros C; apply H0 in C; lia.
Qed.
Lemma abs_pos b r : pattern b -> means b (Fin r) -> r <> 0%R <-> 0 < units b.
Proof.
  intros P H; destruct (fin_abs b r P H) as [E A]; pose proof (units_range b); pose proof (pw_pos (-1074)); split; intros G.
  - destruct (Z.eq_dec (units b) 0) as [U|U]; [|lia]; exfalso; rewrite U in A; apply (Rabs_no_R0 _ G); rewrite A; ring.
  - intros ->; rewrite Rabs_R0 in A; assert (0 < IZR (units b))%R by (apply IZR_lt, G); pose proof (Rmult_lt_0_compat _ _ H2 H1); lra.
Qed.

(** the yes-or-no questions *)
Theorem C182_questions b : pattern b ->
  (ask Isnan b = ABool true <-> means b NaN)
  /\ (ask Isinf b = ABool true <-> exists s, means b (Inf s))
  /\ (ask Isfinite b = ABool true <-> exists r, means b (Fin r))
  /\ (ask Isnormal b = ABool true <-> exists r, means b (Fin r) /\ (powerRZ 2 (-1022) <= Rabs r < powerRZ 2 1024)%R).
Proof.
  intros P; unfold ask, std; split; [|split; [|split]].
  - rewrite means_meaning by exact P; destruct (std_isnan b) eqn:E; split; intros H; try discriminate; try reflexivity.
    + symmetry; apply isnan_meaning, E.
    + symmetry in H; apply isnan_meaning in H; congruence.
  - unfold std_isinf; split.
    + intros H; injection H as H; exists (sign b); apply means_meaning; [exact P|]; unfold meaning.
      destruct (expo b =? 2047); [|discriminate]; destruct (frac b =? 0); [reflexivity|discriminate].
    + intros [s H]; apply means_meaning in H; [|exact P]; unfold meaning in H.
      destruct (expo b =? 2047); [destruct (frac b =? 0); [reflexivity|discriminate]|destruct (expo b =? 0); discriminate].
  - unfold std_isfinite; split.
    + intros H; injection H as H; apply is_fin; [exact P|lia].
    + intros [r H]; apply fin_abs in H; [|exact P]; destruct (expo b =? 2047) eqn:E; [lia|reflexivity].
  - unfold std_isnormal; split.
    + intros H; injection H as H; destruct (is_fin b P ltac:(lia)) as [r Hr]; exists r; split; [exact Hr|]; split.
      * apply (abs_low b r P Hr); apply Z.nlt_ge; intros C; apply units_low in C; lia.
      * destruct (fin_abs b r P Hr) as [E ->]; replace 1024 with (2098 + -1074) by reflexivity; rewrite pw_add, <- (IZR_pow2 2098) by lia.
        apply scale_lt, units_high, E.
    + intros [r [Hr [L _]]]; apply (abs_low b r P Hr) in L; pose proof (proj1 (fin_abs b r P Hr)) as E; pose proof (units_low b E).
      destruct (expo b =? 2047) eqn:E1; [lia|]; destruct (expo b =? 0) eqn:E2; [lia|reflexivity].
Qed.
Print Assumptions C182_questions.

(** fpclassify gives one of five answers, each for numbers of its own kind *)
Theorem C182_class b : pattern b ->
  (ask Fpclassify b = AInt 0 <-> means b NaN)
  /\ (ask Fpclassify b = AInt 1 <-> exists s, means b (Inf s))
  /\ (ask Fpclassify b = AInt 2 <-> means b (Fin 0))
  /\ (ask Fpclassify b = AInt 3 <-> exists r, means b (Fin r) /\ (0 < Rabs r < powerRZ 2 (-1022))%R)
  /\ (ask Fpclassify b = AInt 4 <-> exists r, means b (Fin r) /\ (powerRZ 2 (-1022) <= Rabs r)%R).
Proof.
  intros P; destruct (C182_questions b P) as (Q1 & Q2 & Q3 & Q4); unfold ask, std in *.
  assert (Z0 : std_fpclassify b = 0 <-> std_isnan b = true) by (unfold std_fpclassify, std_isnan; destruct (expo b =? 2047), (expo b =? 0), (frac b =? 0); cbn; split; congruence).
  assert (Z1 : std_fpclassify b = 1 <-> std_isinf b = true) by (unfold std_fpclassify, std_isinf; destruct (expo b =? 2047), (expo b =? 0), (frac b =? 0); cbn; split; congruence).
  assert (Z2 : std_fpclassify b = 2 <-> expo b <> 2047 /\ units b = 0).
  { split.
    - unfold std_fpclassify; intros H; destruct (expo b =? 2047) eqn:E1; [destruct (frac b =? 0); discriminate|].
      destruct (expo b =? 0) eqn:E2; [|discriminate]; destruct (frac b =? 0) eqn:E3; [|discriminate]; split; [lia|]; unfold units; rewrite E2; lia.
    - intros [E U]; apply (units_zero b E) in U; destruct U as [U1 U2]; unfold std_fpclassify; rewrite U1, U2; reflexivity. }
  assert (Z3 : std_fpclassify b = 3 <-> expo b <> 2047 /\ 0 < units b < 2 ^ 52).
  { split.
    - unfold std_fpclassify; intros H; destruct (expo b =? 2047) eqn:E1; [destruct (frac b =? 0); discriminate|].
      destruct (expo b =? 0) eqn:E2; [|discriminate]; destruct (frac b =? 0) eqn:E3; [discriminate|]; split; [lia|]; unfold units; rewrite E2; pose proof (frac_range b); lia.
    - intros [E U]; assert (expo b = 0) as E0 by (apply units_low; lia); unfold units in U; unfold std_fpclassify; rewrite E0 in *; cbn in U |- *; destruct (frac b =? 0) eqn:E3; [lia|reflexivity]. }
  assert (Z4 : std_fpclassify b = 4 <-> expo b <> 2047 /\ 2 ^ 52 <= units b).
  { split.
    - unfold std_fpclassify; intros H; destruct (expo b =? 2047) eqn:E1; [destruct (frac b =? 0); discriminate|].
      destruct (expo b =? 0) eqn:E2; [destruct (frac b =? 0); discriminate|]; split; [lia|]; apply Z.nlt_ge; intros C; apply units_low in C; lia.
    - intros [E U]; pose proof (units_low b E); unfold std_fpclassify; destruct (expo b =? 2047) eqn:E1; [lia|]; destruct (expo b =? 0) eqn:E2; [lia|reflexivity]. }
  assert (I : forall z, AInt (std_fpclassify b) = AInt z <-> std_fpclassify b = z) by (intros; split; congruence).
  rewrite !I, Z0, Z1, Z2, Z3, Z4, <- Q1, <- Q2; split; [split; congruence|]; split; [split; congruence|].
  split; [|split]; split.
  - intros [E U]; destruct (is_fin b P E) as [r Hr]; assert (r = 0%R) as <-; [|exact Hr].
    destruct (Req_dec r 0) as [Hz|Hz]; [exact Hz|]; apply (abs_pos b r P Hr) in Hz; lia.
  - intros Hr; split; [apply (fin_abs b _ P Hr)|]; pose proof (units_range b); destruct (Z.eq_dec (units b) 0) as [|U]; [assumption|].
    assert (0 < units b) as V by lia; apply (abs_pos b 0 P Hr) in V; lra.
  - intros [E U]; destruct (is_fin b P E) as [r Hr]; exists r; split; [exact Hr|]; split.
    + apply Rabs_pos_lt; apply (abs_pos b r P Hr); lia.
    + apply Rnot_le_lt; intros C; apply (abs_low b r P Hr) in C; lia.
  - intros [r [Hr [A B]]]; split; [apply (fin_abs b r P Hr)|]; split.
    + apply (abs_pos b r P Hr); intros ->; rewrite Rabs_R0 in A; lra.
    + apply Z.nle_gt; intros C; apply (abs_low b r P Hr) in C; lra.
  - intros [E U]; destruct (is_fin b P E) as [r Hr]; exists r; split; [exact Hr|]; apply (abs_low b r P Hr), U.
  - intros [r [Hr A]]; split; [apply (fin_abs b r P Hr)|]; apply (abs_low b r P Hr), A.
Qed.
Print Assumptions C182_class.

(** ilogb: the exponent, also of the subnormal numbers; logb is the same number as a double *)
Theorem C182_exponent b r : means b (Fin r) -> r <> 0%R ->
  exists e, ask Ilogb b = AInt e /\ (powerRZ 2 e <= Rabs r < powerRZ 2 (e + 1))%R /\ exists l, ask Logb b = ADbl l /\ means l (Fin (IZR e)).
Proof.
  intros M N; pose proof (means_pattern _ _ M) as P; pose proof (proj1 (abs_pos b r P M) N) as U; destruct (fin_abs b r P M) as [E A].
  exists (exponent b); unfold ask, std, std_ilogb, std_logb.
  destruct (expo b =? 2047) eqn:E1; [lia|]; destruct ((expo b =? 0) && (frac b =? 0)) eqn:E2.
  { assert (units b = 0) by (apply (units_zero b E); lia); lia. }
  split; [reflexivity|]; pose proof (exponent_units b E U) as X.
  pose proof (Z.log2_spec (units b) U) as [L1 L2]; pose proof (Z.log2_nonneg (units b)) as L0.
  assert (L3 : Z.log2 (units b) < 2098) by (apply Z.log2_lt_pow2; [exact U|apply units_high, E]).
  split.
  - rewrite A, X; split.
    + unfold Z.sub; rewrite pw_add, <- IZR_pow2 by exact L0; apply Rmult_le_compat_r; [left; apply pw_pos|apply IZR_le, L1].
    + replace (Z.log2 (units b) - 1074 + 1) with (Z.succ (Z.log2 (units b)) + -1074) by lia; rewrite pw_add, <- (IZR_pow2 (Z.succ (Z.log2 (units b)))) by lia.
      apply scale_lt, L2.
  - eexists; split; [reflexivity|]; apply bits_of_int_means.
    apply Z.lt_trans with 4096; [lia|reflexivity].
Qed.
Print Assumptions C182_exponent.
(** of zero, the infinities and NaN *)
Theorem C182_no_exponent b :
  (means b (Fin 0) -> ask Ilogb b = AInt (- 2 ^ 31) /\ exists l, ask Logb b = ADbl l /\ means l (Inf true))
  /\ ((exists s, means b (Inf s)) -> ask Ilogb b = AInt (2 ^ 31 - 1) /\ exists l, ask Logb b = ADbl l /\ means l (Inf false))
  /\ (means b NaN -> ask Ilogb b = AInt (- 2 ^ 31) /\ exists l, ask Logb b = ADbl l /\ means l NaN).
Proof.
  unfold ask, std, std_ilogb, std_logb; split; [|split].
  - intros M; pose proof (means_pattern _ _ M) as P; pose proof (proj1 (fin_abs b _ P M)) as E.
    assert (units b = 0) as U by (pose proof (units_range b); destruct (Z.eq_dec (units b) 0); [assumption|]; assert (V : 0 < units b) by lia; apply (abs_pos b 0 P M) in V; lra).
    apply (units_zero b E) in U; destruct U as [U1 U2]; rewrite U1, U2; split; [reflexivity|]; eexists; split; [reflexivity|].
    apply means_inf; unfold fields; cbn; lia.
  - intros [s M]; inversion M; subst; destruct (fields_inv _ _ _ _ H0) as (_ & _ & U1 & U2); rewrite U1, U2; split; [reflexivity|]; eexists; split; [reflexivity|].
    apply means_inf; unfold fields; cbn; lia.
  - intros M; inversion M; subst; destruct (fields_inv _ _ _ _ H) as (_ & _ & U1 & U2); rewrite U1, U2; destruct (f =? 0) eqn:F; [lia|].
    split; [reflexivity|]; eexists; split; [reflexivity|]; exact M.
Qed.
Print Assumptions C182_no_exponent.

(** signbit: the sign of what is not zero and not NaN; of a zero both answers occur *)
Theorem C182_sign b :
  (forall r, means b (Fin r) -> r <> 0%R -> (ask Signbit b = ABool true <-> (r < 0)%R))
  /\ (forall s, means b (Inf s) -> ask Signbit b = ABool s).
Proof.
  unfold ask, std, std_signbit; split.
  - intros r M N; pose proof (means_pattern _ _ M) as P; destruct (fin_abs b r P M) as [E A]; apply means_meaning in M; [|exact P].
    rewrite meaning_fin in M by exact E; revert M; generalize (IZR (units b) * powerRZ 2 (-1074))%R, (Rabs_pos_lt r N), A; intros u U A' M; injection M as M; rewrite A' in U.
    unfold signed_by in M; destruct (sign b); split; intros G; try reflexivity; try discriminate; try lra; exfalso; lra.
  - intros s M; inversion M; subst; destruct (fields_inv _ _ _ _ H0) as (_ & -> & _); reflexivity.
Qed.
Print Assumptions C182_sign.
Theorem C182_zero_sign : exists a b, means a (Fin 0) /\ means b (Fin 0) /\ ask Signbit a = ABool false /\ ask Signbit b = ABool true.
Proof.
  exists 0, (2 ^ 63); repeat split.
  - replace (Fin 0) with (Fin (signed_by false (IZR 0 * powerRZ 2 (-1074)))) by (cbn [signed_by]; f_equal; ring); apply means_small; unfold fields; cbn; lia.
  - replace (Fin 0) with (Fin (signed_by true (IZR 0 * powerRZ 2 (-1074)))) by (cbn [signed_by]; f_equal; ring); apply means_small; unfold fields; cbn; lia.
Qed.
Print Assumptions C182_zero_sign.

(** pixels: every channel alone, with every policy *)
Theorem C182_channels pol q p : pol_ok pol ->
  exists o, ask_channels pol q p = Ok o /\ length o = length p /\ forall k b, nth_error p k = Some b -> nth_error o k = Some (ask q b).
Proof.
  intros Hp; unfold ask_channels; rewrite (transform_seq_ok pol _ _ (ask q)) by (auto; intros; reflexivity); eexists; split; [reflexivity|].
  split; [apply map_length|]; intros k b H; rewrite nth_error_map, H; reflexivity.
Qed.
Print Assumptions C182_channels.
(** channels of an integral type: never infinite or NaN, and the exponent is that of the number *)
Theorem C182_ints pol p : pol_ok pol -> Forall (fun z => Z.abs z < 2 ^ 53) p ->
  ask_ints pol Isnan p = Ok (map (fun _ => ABool false) p) /\ ask_ints pol Isinf p = Ok (map (fun _ => ABool false) p)
  /\ ask_ints pol Isfinite p = Ok (map (fun _ => ABool true) p)
  /\ ask_ints pol Isnormal p = Ok (map (fun z => ABool (negb (z =? 0))) p)
  /\ ask_ints pol Signbit p = Ok (map (fun z => ABool (z <? 0)) p)
  /\ ask_ints pol Ilogb p = Ok (map (fun z => AInt (if z =? 0 then - 2 ^ 31 else Z.log2 (Z.abs z))) p).
Proof.
  intros Hp Hs; rewrite Forall_forall in Hs.
  assert (X : forall q g, (forall z, Z.abs z < 2 ^ 53 -> ask q (bits_of_int z) = g z) -> ask_ints pol q p = Ok (map g p)).
  { intros q g H; apply transform_seq_ok; [exact Hp|]; intros z Hz; rewrite H by (apply Hs, Hz); reflexivity. }
  assert (Y : forall z, z <> 0 -> Z.abs z < 2 ^ 53 -> expo (bits_of_int z) = 1023 + Z.log2 (Z.abs z) /\ 0 <= Z.log2 (Z.abs z) <= 52 /\ sign (bits_of_int z) = (z <? 0)).
  { intros z N H; pose proof (bits_of_int_fields z N H) as F; destruct (fields_inv _ _ _ _ F) as (_ & S & E & _); split; [exact E|]; split; [|exact S].
    split; [apply Z.log2_nonneg|apply Z.lt_succ_r; apply Z.log2_lt_pow2; lia]. }
  repeat split; apply X; intros z Hz; destruct (Z.eq_dec z 0) as [->|N]; try reflexivity; destruct (Y z N Hz) as (E & L & S);
    unfold ask, std, std_isnan, std_isinf, std_isfinite, std_isnormal, std_signbit, std_ilogb, exponent; rewrite ?E, ?S;
    destruct (1023 + Z.log2 (Z.abs z) =? 2047) eqn:C; try lia; try reflexivity; destruct (1023 + Z.log2 (Z.abs z) =? 0) eqn:D; try lia; destruct (z =? 0) eqn:G; try lia; cbn [negb andb]; try reflexivity.
  f_equal; lia.
Qed.
Print Assumptions C182_ints.
Example C182_case : ask_channels None Fpclassify [quiet_nan; infinity true; 2 ^ 63; 1; bits_of_int (-6)] = Ok [AInt 0; AInt 1; AInt 2; AInt 3; AInt 4]
  /\ ask_channels (Some seq0) Ilogb [1; bits_of_int (-6)] = Ok [AInt (-1074); AInt 2] /\ means 1 (Fin (IZR 1 * powerRZ 2 (-1074)))
  /\ ask_ints None Ilogb [255; 0; 8] = Ok [AInt 7; AInt (-2147483648); AInt 3].
Proof.
  split; [reflexivity|]; split; [reflexivity|]; split; [|reflexivity].
  apply (means_small 1 false 1); unfold fields; cbn; lia.
Qed.

(** ** C183  comparisons *)
(** == of doubles is equality of what they mean, except that NaN is equal to nothing; < is the order *)
Theorem C183_doubles a b : pattern a -> pattern b ->
  (deq a b = true <-> exists v, v <> NaN /\ means a v /\ means b v)
  /\ (dlt a b = true <-> exists v w, means a v /\ means b w /\ less v w).
Proof.
  intros Pa Pb; split.
  - rewrite deq_meaning by assumption; split.
    + intros [H N]; exists (meaning a); repeat split; [exact N| |]; apply means_meaning; auto.
    + intros (v & N & Ma & Mb); apply means_meaning in Ma; [|exact Pa]; apply means_meaning in Mb; [|exact Pb]; split; congruence.
  - rewrite dlt_meaning by assumption; split.
    + intros H; exists (meaning a), (meaning b); repeat split; [| |exact H]; apply means_meaning; auto.
    + intros (v & w & Ma & Mb & H); apply means_meaning in Ma; [|exact Pa]; apply means_meaning in Mb; [|exact Pb]; subst; exact H.
Qed.
Print Assumptions C183_doubles.

Lemma elements_eqb_spec {A} (eq : A -> A -> bool) l r : elements_eqb eq l r = true <-> Forall2 (fun a b => eq a b = true) l r.
Proof.
  revert r; induction l as [|a l IH]; intros [|b r]; cbn.
  - split; [constructor|reflexivity].
  - split; [discriminate|inversion 1].
  - split; [discriminate|inversion 1].
  - destruct (eq a b) eqn:E; [rewrite IH; split; [intros; constructor; auto|inversion 1; auto]|split; [discriminate|inversion 1; congruence]].
Qed.
Lemma vector_eqb_spec {A} (eq : A -> A -> bool) l r : vector_eqb eq l r = true <-> Forall2 (fun a b => eq a b = true) l r.
Proof.
  unfold vector_eqb; destruct (length l =? length r)%nat eqn:E; [apply elements_eqb_spec|].
  split; [discriminate|intros H; assert (length l = length r) by (clear - H; induction H; cbn; congruence); lia].
Qed.
Lemma Forall2_nat_eq l r : Forall2 (fun a b => Nat.eqb a b = true) l r <-> l = r.
Proof.
  split; [induction 1 as [|a b l r H _ IH]; [reflexivity|apply Nat.eqb_eq in H; congruence]|intros ->].
  induction r; constructor; [apply Nat.eqb_refl|assumption].
Qed.
(** == of pictures with any comparison of the pixels, and != is its negation *)
Theorem C183_images {A} (eq : A -> A -> bool) x y :
  (image_eqb eq x y = true <-> dims x = dims y /\ Forall2 (fun a b => eq a b = true) (pix x) (pix y))
  /\ (image_neqb eq x y = true <-> ~ (dims x = dims y /\ Forall2 (fun a b => eq a b = true) (pix x) (pix y))).
Proof.
  assert (H : image_eqb eq x y = true <-> dims x = dims y /\ Forall2 (fun a b => eq a b = true) (pix x) (pix y)).
  { unfold image_eqb; rewrite andb_true_iff, !vector_eqb_spec, Forall2_nat_eq; reflexivity. }
  split; [exact H|]; rewrite <- H; unfold image_neqb; destruct (image_eqb eq x y); cbn; split; intros; congruence.
Qed.
Print Assumptions C183_images.
(** a picture of doubles is equal to itself exactly when it has no NaN *)
Theorem C183_self (im : image bits) : Forall pattern (pix im) -> image_eqb deq im im = true <-> ~ exists b : bits, In b (pix im) /\ means b NaN.
Proof.
  intros P; rewrite (proj1 (C183_images deq im im)); destruct im as [ds p]; cbn [pix dims] in *; split.
  - intros [_ H] (b & I & M); revert I; clear P; induction p as [|a l IH]; [intros []|inversion H as [|? ? ? ? Hb Hl]; subst].
    intros [->|I]; [|auto]; pose proof (means_pattern _ _ M) as Pb; apply (proj1 (C183_doubles b b Pb Pb)) in Hb; destruct Hb as (v & N & M1 & _).
    apply N; apply means_meaning in M; [|exact Pb]; apply means_meaning in M1; [|exact Pb]; congruence.
  - intros N; split; [reflexivity|]; induction p as [|a l IH]; [constructor|]; inversion P; subst; constructor.
    + apply (proj1 (C183_doubles a a H1 H1)); exists (meaning a); repeat split; try (apply means_meaning; auto; fail).
      intros E; apply N; exists a; split; [left; reflexivity|apply means_meaning; auto].
    + apply IH; [assumption|]; intros (b & I & M); apply N; exists b; split; [right; exact I|exact M].
Qed.
Print Assumptions C183_self.
(** zeros, ones, nan: the pictures of the given extents with that number everywhere; zeros from an empty range is refused *)
Theorem C183_constant ds :
  ReprN (zeros ds) ds (fun _ => 0) /\ means 0 (Fin 0) /\ ReprN (ones ds) ds (fun _ => bits_of_int 1) /\ means (bits_of_int 1) (Fin 1)
  /\ ReprN (nans ds) ds (fun _ => quiet_nan) /\ means quiet_nan NaN
  /\ zeros_range ds = match ds with [] => Throw RuntimeError | _ => Ok (zeros ds) end.
Proof.
  assert (R : forall (c : Z) p, p = repeat c (prodn ds) -> ReprN (mkImage ds p) ds (fun _ => c)).
  { intros c p ->; split; [reflexivity|]; split; [unfold wf; cbn [dims pix]; apply repeat_length|]; intros idx H; cbn [pix].
    apply nth_error_repeat, off_lt, H. }
  split; [apply R; reflexivity|]; split; [apply (bits_of_int_means 0); reflexivity|]; split.
  { unfold ones, set_all_value, zeros, image_sizes; cbn [dims pix]; apply R; clear R; induction (prodn ds) as [|n IHn]; cbn [repeat map]; [reflexivity|f_equal; exact IHn]. }
  split; [apply (bits_of_int_means 1); reflexivity|]; split.
  { unfold nans, set_all_value, zeros, image_sizes; cbn [dims pix]; apply R; clear R; induction (prodn ds) as [|n IHn]; cbn [repeat map]; [reflexivity|f_equal; exact IHn]. }
  split; [apply (means_nan _ false (2 ^ 51)); [unfold fields|]; cbn; lia|destruct ds; reflexivity].
Qed.
Print Assumptions C183_constant.
Theorem C183_nan ds : image_eqb deq (nans ds) (nans ds) = true <-> prodn ds = 0%nat.
Proof.
  assert (E : pix (nans ds) = repeat quiet_nan (prodn ds)) by (unfold nans, set_all_value, zeros, image_sizes; cbn [dims pix]; induction (prodn ds) as [|n IHn]; cbn [repeat map]; [reflexivity|f_equal; exact IHn]).
  assert (P : Forall pattern (pix (nans ds))) by (rewrite E; apply Forall_forall; intros b H; apply repeat_spec in H; subst; unfold pattern; cbn; lia).
  rewrite (C183_self _ P), E; clear P.
  split; [intros H|intros -> [b [[] _]]]; destruct (prodn ds) as [|n]; [reflexivity|exfalso; apply H; exists quiet_nan; split; [left; reflexivity|apply (C183_constant ds)]].
Qed.
Print Assumptions C183_nan.

(** HSV colours without NaN, also with infinite channels: < is a strict order whose ties are ==, so a std::map can use it as its key *)
Definition clear (c : bits * bits * bits) : Prop :=
  let '(c0, c1, c2) := c in Forall (fun b => pattern b /\ ~ means b NaN) [c0; c1; c2].
Theorem C183_hsv_order a b c : clear a -> clear b -> clear c ->
  dhsv_less a a = false /\ (dhsv_less a b = true -> dhsv_less b c = true -> dhsv_less a c = true)
  /\ (dhsv_less a b = true -> dhsv_less b a = false)
  /\ (dhsv_eqb a b = true <-> dhsv_less a b = false /\ dhsv_less b a = false).
Proof.
  destruct a as ((a0, a1), a2), b as ((b0, b1), b2), c as ((c0, c1), c2); unfold clear.
  assert (X : forall x, pattern x /\ ~ means x NaN -> std_isnan x = false).
  { intros x [P N]; destruct (std_isnan x) eqn:E; [|reflexivity]; exfalso; apply N, means_meaning; [exact P|symmetry; apply isnan_meaning, E]. }
  intros Ha Hb Hc; inversion Ha as [|? ? A0 Ha1]; inversion Ha1 as [|? ? A1 Ha2]; inversion Ha2 as [|? ? A2 _]; subst.
  inversion Hb as [|? ? B0 Hb1]; inversion Hb1 as [|? ? B1 Hb2]; inversion Hb2 as [|? ? B2 _]; subst.
  inversion Hc as [|? ? C0 Hc1]; inversion Hc1 as [|? ? C1 Hc2]; inversion Hc2 as [|? ? C2 _]; subst.
  unfold dhsv_less, dhsv_eqb, deq, dlt; rewrite !X by assumption; cbn [orb]; clear.
  generalize (key a0), (key a1), (key a2), (key b0), (key b1), (key b2), (key c0), (key c1), (key c2); clear; intros x0 x1 x2 y0 y1 y2 z0 z1 z2.
  assert (L : forall u0 u1 u2 v0 v1 v2, (if negb (u0 =? v0) then u0 <? v0 else if negb (u1 =? v1) then u1 <? v1 else u2 <? v2)
    = ((u0 <? v0) || (u0 =? v0) && ((u1 <? v1) || (u1 =? v1) && (u2 <? v2)))).
  { intros; destruct (Z.eqb_spec u0 v0), (Z.eqb_spec u1 v1); cbn [negb]; lia. }
  rewrite !L; clear L; lia.
Qed.
Print Assumptions C183_hsv_order.
(** and with NaN it is not: red is neither before nor after a colour whose hue is NaN, nor is blue, but red is before blue *)
Theorem C183_hsv_nan_refuted : exists a b c, dhsv_less a b = false /\ dhsv_less b a = false /\ dhsv_less b c = false /\ dhsv_less c b = false /\ dhsv_less a c = true.
Proof.
  exists (bits_of_int 0, bits_of_int 1, bits_of_int 255), (quiet_nan, bits_of_int 1, bits_of_int 255), (bits_of_int 240, bits_of_int 1, bits_of_int 255).
  repeat split; vm_compute; reflexivity.
Qed.
Print Assumptions C183_hsv_nan_refuted.
(** equal pictures can be told apart: the zeros *)
Theorem C183_zeros : exists x y, image_eqb deq x y = true /\ map (ask Signbit) (pix x) <> map (ask Signbit) (pix y).
Proof. exists (mkImage [1%nat] [0]), (mkImage [1%nat] [2 ^ 63]); split; [reflexivity|discriminate]. Qed.
Print Assumptions C183_zeros.
Example C183_case : image_eqb deq (mkImage [2; 1]%nat [0; infinity true]) (mkImage [2; 1]%nat [2 ^ 63; infinity true]) = true
  /\ image_eqb deq (nans [2; 2]%nat) (nans [2; 2]%nat) = false /\ image_eqb deq (ones [2; 2]%nat) (ones [4; 1]%nat) = false
  /\ clear (infinity true, bits_of_int 1, bits_of_int 2) /\ dhsv_less (infinity true, bits_of_int 1, bits_of_int 2) (0, 0, 0) = true.
Proof.
  do 3 (split; [reflexivity|]); split; [|reflexivity].
  assert (X : forall b, pattern b -> std_isnan b = false -> pattern b /\ ~ means b NaN).
  { intros b P E; split; [exact P|]; intros M; apply (proj1 (C182_questions b P)) in M; unfold ask, std in M; congruence. }
  unfold clear; repeat apply Forall_cons; try apply Forall_nil; (apply X; [unfold pattern; cbn; lia|reflexivity]).
Qed.
