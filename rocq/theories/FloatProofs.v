(** FloatProofs.v - facts about the bit patterns of FloatModel.v *)
From Coq Require Import ZArith Reals Bool List Lia Lra ZifyBool.
From Verif Require Import Base ImageModel PixelModel ArithModel FloatModel.
Import ListNotations.
Open Scope Z_scope.
Ltac Zify.zify_post_hook ::= Z.div_mod_to_equations.

(** ** what a bit pattern means: IEEE 754-2008, 3.4 *)
Inductive number := NaN | Inf (negative : bool) | Fin (r : R).
(** sign, exponent and fraction are the fields of the pattern *)
Definition fields (b : Z) (s : bool) (e f : Z) : Prop :=
  b = (if s then 2 ^ 63 else 0) + e * 2 ^ 52 + f /\ 0 <= e < 2 ^ 11 /\ 0 <= f < 2 ^ 52.
Definition signed_by (s : bool) (r : R) : R := if s then (- r)%R else r.
Inductive means (b : Z) : number -> Prop :=
| means_nan s f : fields b s 2047 f -> f <> 0 -> means b NaN
| means_inf s : fields b s 2047 0 -> means b (Inf s)
| means_small s f : fields b s 0 f -> means b (Fin (signed_by s (IZR f * powerRZ 2 (-1074))))
| means_normal s e f : fields b s e f -> 0 < e < 2047 -> means b (Fin (signed_by s (IZR (2 ^ 52 + f) * powerRZ 2 (e - 1075)))).

Definition pattern (b : Z) : Prop := 0 <= b < 2 ^ 64.

Lemma fields_of b : pattern b -> fields b (sign b) (expo b) (frac b).
Proof.
  unfold pattern, fields, sign, expo, frac; change (2 ^ 64) with 18446744073709551616; change (2 ^ 63) with 9223372036854775808; change (2 ^ 52) with 4503599627370496; change (2 ^ 11) with 2048.
  intros H; destruct (9223372036854775808 <=? b) eqn:E; lia.
Qed.
Lemma fields_inv b s e f : fields b s e f -> pattern b /\ sign b = s /\ expo b = e /\ frac b = f.
Proof.
  unfold pattern, fields, sign, expo, frac; change (2 ^ 64) with 18446744073709551616; change (2 ^ 63) with 9223372036854775808; change (2 ^ 52) with 4503599627370496; change (2 ^ 11) with 2048.
  intros H; destruct s; repeat split; lia.
Qed.
Lemma magnitude_of b : pattern b -> magnitude b = expo b * 2 ^ 52 + frac b.
Proof.
  unfold pattern, magnitude, expo, frac; change (2 ^ 64) with 18446744073709551616; change (2 ^ 63) with 9223372036854775808; change (2 ^ 52) with 4503599627370496; change (2 ^ 11) with 2048; lia.
Qed.
Lemma expo_range b : 0 <= expo b < 2048.
Proof. unfold expo; change (2 ^ 11) with 2048; lia. Qed.
Lemma frac_range b : 0 <= frac b < 2 ^ 52.
Proof. unfold frac; change (2 ^ 52) with 4503599627370496; lia. Qed.

(** the meaning as a function *)
Definition meaning (b : Z) : number :=
  if expo b =? 2047 then (if frac b =? 0 then Inf (sign b) else NaN)
  else if expo b =? 0 then Fin (signed_by (sign b) (IZR (frac b) * powerRZ 2 (-1074)))
  else Fin (signed_by (sign b) (IZR (2 ^ 52 + frac b) * powerRZ 2 (expo b - 1075))).
Lemma means_meaning b v : pattern b -> means b v <-> v = meaning b.
Proof.
  intros P; pose proof (expo_range b) as RE; pose proof (fields_of b P) as F; split.
  - intros H; inversion H; subst;
      match goal with HF : fields b _ _ _ |- _ => destruct (fields_inv _ _ _ _ HF) as (_ & E1 & E2 & E3) end; unfold meaning; rewrite E1, E2, E3.
    + rewrite Z.eqb_refl; destruct (f =? 0) eqn:G; [apply Z.eqb_eq in G; contradiction|reflexivity].
    + reflexivity.
    + reflexivity.
    + destruct (e =? 2047) eqn:G1; [lia|]; destruct (e =? 0) eqn:G2; [lia|]; reflexivity.
  - intros ->; unfold meaning.
    destruct (expo b =? 2047) eqn:E1; [destruct (frac b =? 0) eqn:E2|destruct (expo b =? 0) eqn:E2].
    + apply Z.eqb_eq in E1, E2; rewrite E1, E2 in F; apply means_inf, F.
    + apply Z.eqb_eq in E1; rewrite E1 in F; apply (means_nan b _ _ F); lia.
    + apply Z.eqb_eq in E2; rewrite E2 in F; apply (means_small b _ _ F).
    + apply (means_normal b _ _ _ F); lia.
Qed.

(** ** the magnitude in units of 2^-1074 *)
Definition units (b : Z) : Z := if expo b =? 0 then frac b else (2 ^ 52 + frac b) * 2 ^ (expo b - 1).
Lemma IZR_pow2 n : 0 <= n -> IZR (2 ^ n) = powerRZ 2 n.
Proof.
  intros H; rewrite <- (Z2Nat.id n) at 1 by lia; rewrite <- pow_IZR; rewrite pow_powerRZ, Z2Nat.id by lia; reflexivity.
Qed.
Lemma two_not0 : (2 <> 0)%R. Proof. lra. Qed.
Lemma pw_add a b : (powerRZ 2 (a + b) = powerRZ 2 a * powerRZ 2 b)%R.
Proof. apply powerRZ_add, two_not0. Qed.
Lemma pw_pos a : (0 < powerRZ 2 a)%R.
Proof. apply powerRZ_lt; lra. Qed.
Lemma units_range b : 0 <= units b.
Proof.
  unfold units; pose proof (frac_range b); destruct (expo b =? 0) eqn:E; [lia|].
  apply Z.mul_nonneg_nonneg; [lia|apply Z.pow_nonneg; lia].
Qed.
Lemma meaning_fin b : expo b <> 2047 -> meaning b = Fin (signed_by (sign b) (IZR (units b) * powerRZ 2 (-1074))).
Proof.
  intros H; unfold meaning, units; destruct (expo b =? 2047) eqn:E; [lia|]; destruct (expo b =? 0) eqn:E0; [reflexivity|].
  do 2 f_equal; rewrite mult_IZR, IZR_pow2 by (pose proof (expo_range b); lia); rewrite Rmult_assoc, <- pw_add; do 2 f_equal; lia.
Qed.
Lemma units_zero b : expo b <> 2047 -> units b = 0 <-> expo b = 0 /\ frac b = 0.
Proof.
  intros H; unfold units; pose proof (frac_range b); pose proof (expo_range b); destruct (expo b =? 0) eqn:E; [lia|].
  split; [intros G|lia]; apply Z.mul_eq_0 in G; destruct G as [G|G]; [lia|]; pose proof (Z.pow_pos_nonneg 2 (expo b - 1)); lia.
Qed.
Lemma exponent_units b : expo b <> 2047 -> 0 < units b -> exponent b = Z.log2 (units b) - 1074.
Proof.
  intros H; unfold units, exponent; pose proof (frac_range b); pose proof (expo_range b); destruct (expo b =? 0) eqn:E; [reflexivity|].
  intros _; rewrite Z.log2_mul_pow2 by lia.
  rewrite (Z.log2_unique (2 ^ 52 + frac b) 52); [lia|lia|change (Z.succ 52) with 53; change (2 ^ 53) with (2 ^ 52 + 2 ^ 52); lia].
Qed.
Lemma units_low b : expo b <> 2047 -> expo b = 0 <-> units b < 2 ^ 52.
Proof.
  intros H; unfold units; pose proof (frac_range b); pose proof (expo_range b); destruct (expo b =? 0) eqn:E; [lia|].
  split; [lia|intros G; exfalso]; pose proof (Z.pow_pos_nonneg 2 (expo b - 1) ltac:(lia) ltac:(lia)).
  assert ((2 ^ 52 + frac b) * 1 <= (2 ^ 52 + frac b) * 2 ^ (expo b - 1)) by (apply Z.mul_le_mono_nonneg_l; lia); lia.
Qed.
Lemma units_high b : expo b <> 2047 -> units b < 2 ^ 2098.
Proof.
  intros H; unfold units; pose proof (frac_range b); pose proof (expo_range b); destruct (expo b =? 0) eqn:E.
  - apply Z.lt_le_trans with (2 ^ 52); [lia|apply Z.pow_le_mono_r; lia].
  - replace 2098 with (53 + 2045) by reflexivity; rewrite Z.pow_add_r by lia.
    apply Z.lt_le_trans with (2 ^ 53 * 2 ^ (expo b - 1)).
    + apply Z.mul_lt_mono_pos_r; [apply Z.pow_pos_nonneg; lia|change (2 ^ 53) with (2 ^ 52 + 2 ^ 52); lia].
    + apply Z.mul_le_mono_nonneg_l; [lia|apply Z.pow_le_mono_r; lia].
Qed.
(** the order of the bit patterns is that of the magnitudes *)
Lemma units_mono a b : pattern a -> pattern b -> magnitude a < magnitude b -> units a < units b.
Proof.
  intros Pa Pb; rewrite !magnitude_of by assumption; unfold units.
  pose proof (frac_range a) as Fa; pose proof (frac_range b) as Fb; pose proof (expo_range a) as Ea; pose proof (expo_range b) as Eb.
  intros H; assert (C : expo a = expo b /\ frac a < frac b \/ expo a < expo b).
  { change (2 ^ 52) with 4503599627370496 in *; lia. }
  destruct C as [[C1 C2]|C].
  - rewrite C1; destruct (expo b =? 0) eqn:E; [exact C2|]; apply Z.mul_lt_mono_pos_r; [apply Z.pow_pos_nonneg; lia|lia].
  - destruct (expo b =? 0) eqn:E; [lia|].
    assert (G : 2 ^ 52 * 2 ^ (expo b - 1) <= (2 ^ 52 + frac b) * 2 ^ (expo b - 1)) by (apply Z.mul_le_mono_nonneg_r; [apply Z.pow_nonneg; lia|lia]).
    eapply Z.lt_le_trans; [|exact G]; rewrite <- Z.pow_add_r by lia.
    destruct (expo a =? 0) eqn:E'.
    + eapply Z.lt_le_trans; [apply Fa|apply Z.pow_le_mono_r; lia].
    + apply Z.lt_le_trans with (2 ^ 53 * 2 ^ (expo a - 1)).
      * apply Z.mul_lt_mono_pos_r; [apply Z.pow_pos_nonneg; lia|change (2 ^ 53) with (2 ^ 52 + 2 ^ 52); lia].
      * rewrite <- Z.pow_add_r by lia; apply Z.pow_le_mono_r; lia.
Qed.
Lemma units_eq a b : pattern a -> pattern b -> magnitude a = magnitude b -> units a = units b.
Proof.
  intros Pa Pb; rewrite !magnitude_of by assumption; intros H.
  pose proof (frac_range a) as Fa; pose proof (frac_range b) as Fb; pose proof (expo_range a) as Ea; pose proof (expo_range b) as Eb.
  assert (expo a = expo b /\ frac a = frac b) as [E1 E2] by (change (2 ^ 52) with 4503599627370496 in *; lia).
  unfold units; rewrite E1, E2; reflexivity.
Qed.
Lemma units_pos b : pattern b -> expo b <> 2047 -> 0 < units b <-> 0 < magnitude b.
Proof.
  intros P H; rewrite magnitude_of by exact P; pose proof (units_range b); pose proof (units_zero b H).
  pose proof (frac_range b); pose proof (expo_range b); change (2 ^ 52) with 4503599627370496 in *; lia.
Qed.
Definition key_units (b : Z) : Z := if sign b then - units b else units b.
Lemma key_units_lt a b : pattern a -> pattern b -> expo a <> 2047 -> expo b <> 2047 -> key a < key b <-> key_units a < key_units b.
Proof.
  intros Pa Pb Ha Hb; unfold key, key_units.
  pose proof (units_mono a b Pa Pb) as M1; pose proof (units_mono b a Pb Pa) as M2; pose proof (units_eq a b Pa Pb) as M3.
  pose proof (units_pos a Pa Ha) as U1; pose proof (units_pos b Pb Hb) as U2; pose proof (units_range a); pose proof (units_range b).
  assert (0 <= magnitude a) by (unfold magnitude; apply Z.mod_pos_bound; lia).
  assert (0 <= magnitude b) by (unfold magnitude; apply Z.mod_pos_bound; lia).
  destruct (Z_lt_le_dec (magnitude a) (magnitude b)), (Z_lt_le_dec (magnitude b) (magnitude a)), (sign a), (sign b); lia.
Qed.
Lemma key_units_eq a b : pattern a -> pattern b -> expo a <> 2047 -> expo b <> 2047 -> key a = key b <-> key_units a = key_units b.
Proof.
  intros Pa Pb Ha Hb; pose proof (key_units_lt a b Pa Pb Ha Hb); pose proof (key_units_lt b a Pb Pa Hb Ha); lia.
Qed.
Lemma meaning_key b : expo b <> 2047 -> meaning b = Fin (IZR (key_units b) * powerRZ 2 (-1074)).
Proof.
  intros H; rewrite meaning_fin by exact H; f_equal; unfold signed_by, key_units; destruct (sign b); [rewrite opp_IZR; ring|reflexivity].
Qed.
Lemma scale_lt x y : (IZR x * powerRZ 2 (-1074) < IZR y * powerRZ 2 (-1074))%R <-> x < y.
Proof.
  pose proof (pw_pos (-1074)); split; intros G.
  - apply lt_IZR; eapply Rmult_lt_reg_r; eauto.
  - apply Rmult_lt_compat_r; [assumption|apply IZR_lt, G].
Qed.
Lemma scale_eq x y : (IZR x * powerRZ 2 (-1074) = IZR y * powerRZ 2 (-1074))%R <-> x = y.
Proof.
  pose proof (scale_lt x y) as [A1 A2]; pose proof (scale_lt y x) as [B1 B2]; split; [|intros ->; reflexivity].
  intros G; rewrite G in *; destruct (Ztrichotomy x y) as [C|[C|C]]; [|exact C|]; exfalso.
  - apply A2 in C; lra.
  - apply Z.gt_lt, B2 in C; lra.
Qed.

(** ** order of numbers *)
Inductive less : number -> number -> Prop :=
| less_fin x y : (x < y)%R -> less (Fin x) (Fin y)
| less_low y : less (Inf true) (Fin y)
| less_high x : less (Fin x) (Inf false)
| less_infs : less (Inf true) (Inf false).

Lemma isnan_meaning b : std_isnan b = true <-> meaning b = NaN.
Proof.
  unfold std_isnan, meaning; destruct (expo b =? 2047), (expo b =? 0), (frac b =? 0); cbn [andb negb]; split; congruence.
Qed.
Lemma inf_key b : pattern b -> expo b = 2047 -> frac b = 0 -> key b = if sign b then - (2047 * 2 ^ 52) else 2047 * 2 ^ 52.
Proof. intros P E F; unfold key; rewrite magnitude_of, E, F by exact P; destruct (sign b); reflexivity. Qed.
Lemma fin_key b : pattern b -> expo b <> 2047 -> - (2047 * 2 ^ 52) < key b < 2047 * 2 ^ 52.
Proof.
  intros P E; unfold key; rewrite magnitude_of by exact P; pose proof (frac_range b); pose proof (expo_range b).
  change (2 ^ 52) with 4503599627370496 in *; destruct (sign b); lia.
Qed.
Lemma dlt_meaning a b : pattern a -> pattern b -> dlt a b = true <-> less (meaning a) (meaning b).
Proof.
  intros Pa Pb; unfold dlt.
  destruct (std_isnan a) eqn:Na; [cbn; apply isnan_meaning in Na; rewrite Na; split; [discriminate|inversion 1]|].
  destruct (std_isnan b) eqn:Nb; [cbn; apply isnan_meaning in Nb; rewrite Nb; split; [discriminate|inversion 1]|].
  cbn [orb]; rewrite Z.ltb_lt.
  assert (Ia : expo a = 2047 -> frac a = 0) by (unfold std_isnan in Na; intros E; rewrite E in Na; cbn in Na; lia).
  assert (Ib : expo b = 2047 -> frac b = 0) by (unfold std_isnan in Nb; intros E; rewrite E in Nb; cbn in Nb; lia).
  destruct (Z.eq_dec (expo a) 2047) as [Ea|Ea], (Z.eq_dec (expo b) 2047) as [Eb|Eb].
  - rewrite !inf_key by auto; unfold meaning; rewrite Ea, Eb, Ia, Ib by auto; cbn - [powerRZ Z.pow Z.mul Z.opp]; destruct (sign a), (sign b); split; intros H; try lia; try (inversion H; fail); try constructor.
  - rewrite (inf_key a) by auto; rewrite (meaning_key b) by auto; unfold meaning; rewrite Ea, Ia by auto; cbn - [powerRZ Z.pow Z.mul Z.opp].
    pose proof (fin_key b Pb Eb); change (2047 * 2 ^ 52) with 9218868437227405312 in *; destruct (sign a); split; intros H'; try lia; try (inversion H'; fail); constructor.
  - rewrite (inf_key b) by auto; rewrite (meaning_key a) by auto; unfold meaning; rewrite Eb, Ib by auto; cbn - [powerRZ Z.pow Z.mul Z.opp].
    pose proof (fin_key a Pa Ea); change (2047 * 2 ^ 52) with 9218868437227405312 in *; destruct (sign b); split; intros H'; try lia; try (inversion H'; fail); constructor.
  - rewrite !meaning_key by auto; rewrite key_units_lt by auto; rewrite <- scale_lt; split; [intros; constructor; auto|inversion 1; auto].
Qed.
Lemma deq_meaning a b : pattern a -> pattern b -> deq a b = true <-> meaning a = meaning b /\ meaning a <> NaN.
Proof.
  intros Pa Pb; unfold deq.
  destruct (std_isnan a) eqn:Na; [cbn; apply isnan_meaning in Na; rewrite Na; split; [discriminate|intros [_ H]; congruence]|].
  destruct (std_isnan b) eqn:Nb; [cbn; apply isnan_meaning in Nb; rewrite Nb; split; [discriminate|intros [H H']; congruence]|].
  cbn [orb]; rewrite Z.eqb_eq.
  assert (Ia : expo a = 2047 -> frac a = 0) by (unfold std_isnan in Na; intros E; rewrite E in Na; cbn in Na; lia).
  assert (Ib : expo b = 2047 -> frac b = 0) by (unfold std_isnan in Nb; intros E; rewrite E in Nb; cbn in Nb; lia).
  destruct (Z.eq_dec (expo a) 2047) as [Ea|Ea], (Z.eq_dec (expo b) 2047) as [Eb|Eb].
  - rewrite !inf_key by auto; unfold meaning; rewrite Ea, Eb, Ia, Ib by auto; cbn - [powerRZ Z.pow Z.mul Z.opp]; destruct (sign a), (sign b); split; intros H; try lia; try (split; congruence); destruct H; congruence.
  - rewrite (inf_key a) by auto; rewrite (meaning_key b) by auto; unfold meaning; rewrite Ea, Ia by auto; cbn - [powerRZ Z.pow Z.mul Z.opp].
    pose proof (fin_key b Pb Eb); change (2047 * 2 ^ 52) with 9218868437227405312 in *; destruct (sign a); split; intros H'; try lia; destruct H'; congruence.
  - rewrite (inf_key b) by auto; rewrite (meaning_key a) by auto; unfold meaning; rewrite Eb, Ib by auto; cbn - [powerRZ Z.pow Z.mul Z.opp].
    pose proof (fin_key a Pa Ea); change (2047 * 2 ^ 52) with 9218868437227405312 in *; destruct (sign b); split; intros H'; try lia; destruct H'; congruence.
  - rewrite !meaning_key by auto; rewrite key_units_eq by auto; rewrite <- scale_eq; split; [intros G; split; congruence|intros [G _]; congruence].
Qed.

(** ** whole numbers *)
Lemma bits_of_int_fields z : z <> 0 -> Z.abs z < 2 ^ 53 ->
  fields (bits_of_int z) (z <? 0) (1023 + Z.log2 (Z.abs z)) (Z.abs z * 2 ^ (52 - Z.log2 (Z.abs z)) - 2 ^ 52).
Proof.
  intros N H; unfold bits_of_int, fields; destruct (z =? 0) eqn:E; [lia|].
  set (l := Z.log2 (Z.abs z)).
  assert (L : 0 <= l <= 52) by (subst l; split; [apply Z.log2_nonneg|apply Z.lt_succ_r; apply Z.log2_lt_pow2; lia]).
  pose proof (Z.log2_spec (Z.abs z) ltac:(lia)) as [S1 S2]; fold l in S1, S2.
  assert (P : 2 ^ l * 2 ^ (52 - l) = 2 ^ 52) by (rewrite <- Z.pow_add_r by lia; f_equal; lia).
  assert (0 < 2 ^ (52 - l)) by (apply Z.pow_pos_nonneg; lia).
  rewrite Z.pow_succ_r in S2 by lia.
  assert (Z.abs z * 2 ^ (52 - l) < 2 * 2 ^ l * 2 ^ (52 - l)) by (apply Z.mul_lt_mono_pos_r; lia).
  assert (2 ^ l * 2 ^ (52 - l) <= Z.abs z * 2 ^ (52 - l)) by (apply Z.mul_le_mono_nonneg_r; lia).
  change (2 ^ 11) with 2048; repeat split; lia.
Qed.
Lemma bits_of_int_means z : Z.abs z < 2 ^ 53 -> means (bits_of_int z) (Fin (IZR z)).
Proof.
  intros H; destruct (Z.eq_dec z 0) as [->|N].
  - replace (Fin (IZR 0)) with (Fin (signed_by false (IZR 0 * powerRZ 2 (-1074)))) by (cbn [signed_by]; f_equal; ring).
    apply means_small; unfold fields, bits_of_int; cbn; lia.
  - pose proof (bits_of_int_fields z N H) as F.
    assert (L : 0 <= Z.log2 (Z.abs z) <= 52) by (split; [apply Z.log2_nonneg|apply Z.lt_succ_r; apply Z.log2_lt_pow2; lia]).
    assert (M := means_normal _ _ _ _ F ltac:(lia)).
    replace (Fin (IZR z)) with (Fin (signed_by (z <? 0) (IZR (2 ^ 52 + (Z.abs z * 2 ^ (52 - Z.log2 (Z.abs z)) - 2 ^ 52)) * powerRZ 2 (1023 + Z.log2 (Z.abs z) - 1075)))); [exact M|].
    f_equal; replace (2 ^ 52 + (Z.abs z * 2 ^ (52 - Z.log2 (Z.abs z)) - 2 ^ 52)) with (Z.abs z * 2 ^ (52 - Z.log2 (Z.abs z))) by ring.
    rewrite mult_IZR, IZR_pow2, Rmult_assoc, <- pw_add by lia.
    replace (52 - Z.log2 (Z.abs z) + (1023 + Z.log2 (Z.abs z) - 1075)) with 0 by ring; cbn [powerRZ].
    unfold signed_by; destruct (z <? 0) eqn:S; [rewrite Z.abs_neq, opp_IZR by lia; ring|rewrite Z.abs_eq by lia; ring].
Qed.
Lemma means_pattern b v : means b v -> pattern b.
Proof. inversion 1; subst; eapply fields_inv; eauto. Qed.
