(** PropHue.v - property C185: the conversions between RGB and HSV when every operation rounds.
    The specification uses the hexagonal cone ([hexcone], PropColour.v) and whole numbers. *)
From Coq Require Import ZArith Reals Bool List Lia Lra Psatz ZifyBool.
From Verif Require Import Base ImageModel PixelModel OField SiftModel SiftProofs ColourModel ColourProofs PropColour FloatModel FloatProofs RoundModel RoundProofs HueModel.
Import ListNotations.
Open Scope Z_scope.
Ltac Zify.zify_post_hook ::= Z.div_mod_to_equations.

Lemma Rabs_le_inv x a : (Rabs x <= a -> - a <= x <= a)%R.
Proof. unfold Rabs; destruct (Rcase_abs x); lra. Qed.
(** ** doubles *)
Lemma double_scaled m e : Z.abs m < 2 ^ 53 -> -1000 <= e <= 900 -> double (IZR m * powerRZ 2 e).
Proof.
  intros H E; destruct (Z.eq_dec m 0) as [->|N].
  { rewrite Rmult_0_l; exists 0; apply (bits_of_int_means 0); lia. }
  pose proof (bits_of_int_fields m N H) as (B & E1 & F1); set (l := Z.log2 (Z.abs m)) in *.
  assert (L : 0 <= l <= 52) by (subst l; split; [apply Z.log2_nonneg|apply Z.lt_succ_r; apply Z.log2_lt_pow2; lia]).
  exists (bits_of_int m + e * 2 ^ 52).
  assert (F : fields (bits_of_int m + e * 2 ^ 52) (m <? 0) (1023 + l + e) (Z.abs m * 2 ^ (52 - l) - 2 ^ 52)).
  { split; [rewrite B; ring|]; split; [change (2 ^ 11) with 2048; lia|exact F1]. }
  pose proof (means_normal _ _ _ _ F ltac:(lia)) as M; replace (2 ^ 52 + (Z.abs m * 2 ^ (52 - l) - 2 ^ 52)) with (Z.abs m * 2 ^ (52 - l)) in M by ring.
  replace (IZR m * powerRZ 2 e)%R with (signed_by (m <? 0) (IZR (Z.abs m * 2 ^ (52 - l)) * powerRZ 2 (1023 + l + e - 1075)))%R; [exact M|].
  rewrite mult_IZR, IZR_pow2, Rmult_assoc, <- pw_add by lia; replace (52 - l + (1023 + l + e - 1075)) with e by ring.
  unfold signed_by; destruct (m <? 0) eqn:S; [rewrite Z.abs_neq by lia; rewrite opp_IZR; ring|rewrite Z.abs_eq by lia; reflexivity].
Qed.
Lemma double_int z : Z.abs z < 2 ^ 53 -> double (IZR z).
Proof. intros H; exists (bits_of_int z); apply bits_of_int_means, H. Qed.
Lemma dround_exact x r : double x -> dround x r -> r = x.
Proof. intros [b M] (c & R & Mr); apply (rounds_exact _ b) in R; [|exact M]; pose proof (means_inj _ _ _ Mr R) as Q; congruence. Qed.
Lemma dround_self x : double x -> dround x x.
Proof. intros [b M]; exists b; split; [apply (rounds_exact _ b); exact M|exact M]. Qed.
Lemma dround_le x r y : double y -> (x <= y)%R -> dround x r -> (r <= y)%R.
Proof. intros [b M] L (c & R & Mr); eapply rounds_below; eauto. Qed.
Lemma dround_ge x r y : double y -> (y <= x)%R -> dround x r -> (y <= r)%R.
Proof. intros [b M] L (c & R & Mr); eapply rounds_above; eauto. Qed.
Lemma dround_near x r y : double y -> dround x r -> (Rabs (x - r) <= Rabs (x - y))%R.
Proof.
  intros [b M] (c & R & Mr); unfold rounds in R; destruct (Rlt_dec (Rabs x) too_large) as [S|S].
  - destruct R as (r' & M' & N); pose proof (means_inj _ _ _ M' Mr) as Q; injection Q as ->; apply (N b y M).
  - pose proof (means_inj _ _ _ R Mr); discriminate.
Qed.
Lemma pw2 e : 0 <= e -> (powerRZ 2 (- e) * IZR (2 ^ e) = 1)%R.
Proof. intros H; rewrite IZR_pow2 by lia; rewrite <- pw_add; replace (- e + e) with 0 by ring; apply powerRZ_O. Qed.
(** a multiple of 2^-e just below *)
Lemma grid x e : 0 <= e -> exists m, (IZR m * powerRZ 2 (- e) <= x < IZR m * powerRZ 2 (- e) + powerRZ 2 (- e))%R /\ (IZR m <= x * IZR (2 ^ e) < IZR m + 1)%R.
Proof.
  intros E; exists (Int_part (x * IZR (2 ^ e))); pose proof (Int_part_bounds (x * IZR (2 ^ e))) as B; split; [|exact B].
  pose proof (pw_pos (- e)) as P; pose proof (pw2 e E) as Q; set (u := powerRZ 2 (- e)) in *; set (n := IZR (Int_part _)) in *.
  assert (X : x = (x * IZR (2 ^ e) * u)%R) by (rewrite Rmult_assoc, (Rmult_comm (IZR (2 ^ e))), Q; ring).
  split; rewrite X; nra.
Qed.
Lemma dround_error x r : (Rabs x <= 4)%R -> dround x r -> (Rabs (x - r) <= powerRZ 2 (-50))%R.
Proof.
  intros H R; destruct (grid x 50 ltac:(lia)) as (m & G & B); change (- (50)) with (-50) in G.
  assert (D : double (IZR m * powerRZ 2 (-50))).
  { apply double_scaled; [|lia]; apply Rabs_le_inv in H; assert (P : (0 < IZR (2 ^ 50))%R) by (apply IZR_lt; lia).
    assert (- (4 * 2 ^ 50) - 1 < m < 4 * 2 ^ 50 + 1); [|lia].
    split; apply lt_IZR; [rewrite minus_IZR, opp_IZR, mult_IZR|rewrite plus_IZR, mult_IZR]; nra. }
  pose proof (dround_near x r _ D R) as N; eapply Rle_trans; [exact N|]; rewrite Rabs_right by lra; lra.
Qed.
Lemma dround_total x : (Rabs x <= 1000)%R -> exists r, dround x r.
Proof.
  intros H; destruct (double_int 1000 ltac:(lia)) as [b M]; apply means_not_large in M; rewrite Rabs_right in M by lra.
  destruct (rounds_total x) as [c R]; destruct (rounds_fin x c ltac:(lra) R) as (r & Mr & _); exists r, c; auto.
Qed.
(** ** long doubles *)
Lemma ext_scaled m e : Z.abs m < 2 ^ 64 -> -16445 <= e <= 16320 -> extended (IZR m * powerRZ 2 e).
Proof. intros; exists m, e; auto. Qed.
Lemma ext_int z : Z.abs z < 2 ^ 64 -> extended (IZR z).
Proof. intros H; exists z, 0; rewrite powerRZ_O, Rmult_1_r; repeat split; auto; lia. Qed.
Lemma xround_exact x r : extended x -> xround x r -> r = x.
Proof. intros E [_ N]; specialize (N x E); rewrite abs_self in N; destruct (Req_dec (x - r) 0) as [Q|Q]; [lra|]; apply Rabs_pos_lt in Q; lra. Qed.
Lemma xround_self x : extended x -> xround x x.
Proof. intros E; split; [exact E|]; intros; rewrite abs_self; apply Rabs_pos. Qed.
Lemma xround_le x r y : extended y -> (x <= y)%R -> xround x r -> (r <= y)%R.
Proof. intros E L [_ N]; specialize (N y E); apply Rnot_lt_le; intros C; revert N; rewrite !Rabs_left1 by lra; lra. Qed.
Lemma xround_ge x r y : extended y -> (y <= x)%R -> xround x r -> (y <= r)%R.
Proof. intros E L [_ N]; specialize (N y E); apply Rnot_lt_le; intros C; revert N; rewrite !Rabs_right by lra; lra. Qed.
Definition eps : R := powerRZ 2 (-53).
Lemma eps_value : (0 < eps)%R /\ (eps * IZR (2 ^ 53) = 1)%R.
Proof. split; [apply pw_pos|]; apply (pw2 53); lia. Qed.
Lemma xround_error x r : (Rabs x <= 512)%R -> xround x r -> (Rabs (r - x) <= eps)%R.
Proof.
  intros H [_ N]; destruct (grid x 53 ltac:(lia)) as (m & G & B); change (- (53)) with (-53) in G; fold eps in G.
  assert (D : extended (IZR m * eps)).
  { apply ext_scaled; [|lia]; apply Rabs_le_inv in H; assert (P : (0 < IZR (2 ^ 53))%R) by (apply IZR_lt; lia).
    assert (- (512 * 2 ^ 53) - 1 < m < 512 * 2 ^ 53 + 1); [|lia].
    split; apply lt_IZR; [rewrite minus_IZR, opp_IZR, mult_IZR|rewrite plus_IZR, mult_IZR]; nra. }
  specialize (N _ D); rewrite Rabs_minus_sym; eapply Rle_trans; [exact N|]; rewrite Rabs_right by lra; lra.
Qed.
(** errors add up *)
Lemma xround_step x x0 k r : (Rabs (x - x0) <= k)%R -> (Rabs x0 <= 256)%R -> (k <= 1)%R -> xround x r -> (Rabs (r - x0) <= k + eps)%R.
Proof.
  intros H X K R; apply Rabs_le_inv in H, X; pose proof (xround_error x r ltac:(apply Rabs_le; lra) R) as E; apply Rabs_le_inv in E; apply Rabs_le; lra.
Qed.
Lemma scaled_error a a0 s k c : (0 <= s <= c)%R -> (Rabs (a - a0) <= k)%R -> (Rabs (a * s - a0 * s) <= k * c)%R.
Proof.
  intros S H; replace (a * s - a0 * s)%R with ((a - a0) * s)%R by ring; rewrite Rabs_mult, (Rabs_right s) by lra.
  apply Rmult_le_compat; [apply Rabs_pos|lra|exact H|lra].
Qed.
(** ** the hexagonal cone is continuous *)
Lemma hexcone_sector k z s v : 0 <= k < 6 -> (IZR k <= z < IZR k + 1)%R ->
  let f := (z - IZR k)%R in
  sector k v (v * (1 - f * s)) (v * (1 - (1 - f) * s)) (v * (1 - s)) = (hexcone 5 (60 * z) s v, hexcone 3 (60 * z) s v, hexcone 1 (60 * z) s v).
Proof.
  intros K B f; unfold f; clear f; assert (X : (60 * z / 60 = z)%R) by field.
  assert (C : k = 0 \/ k = 1 \/ k = 2 \/ k = 3 \/ k = 4 \/ k = 5) by lia.
  destruct C as [->|[->|[->|[->|[->| ->]]]]]; cbn [sector];
  (apply (f_equal2 pair); [apply (f_equal2 pair)|]);
  ((rewrite hexcone_low by (rewrite X; lra)) || (rewrite hexcone_high by (rewrite X; lra))); cbv zeta; rewrite X;
  first [hexcone_weight 0%R | hexcone_weight 1%R | hexcone_weight (z - 1)%R | hexcone_weight (1 - (z - 0))%R
        | hexcone_weight (z - 3)%R | hexcone_weight (1 - (z - 2))%R | hexcone_weight (z - 5)%R | hexcone_weight (1 - (z - 4))%R].
Qed.
Definition weight (k : R) : R := Rmax 0 (Rmin (Rmin k (4 - k)) 1).
Ltac rcases := repeat match goal with |- context [Rle_dec ?a ?b] =>
       lazymatch a with context [Rle_dec _ _] => fail | _ => lazymatch b with context [Rle_dec _ _] => fail | _ => destruct (Rle_dec a b) end end end.
Lemma weight_lip a b d : (Rabs (a - b) <= d)%R -> (Rabs (weight a - weight b) <= d)%R.
Proof. intros H; apply Rabs_le_inv in H; apply Rabs_le; unfold weight, Rmax, Rmin; rcases; lra. Qed.
Lemma weight_wrap a b d : (0 <= b)%R -> (a <= 6)%R -> (b + 6 - a <= d)%R -> (d <= 1)%R -> (Rabs (weight a - weight b) <= d)%R.
Proof. intros B A H D; apply Rabs_le; unfold weight, Rmax, Rmin; rcases; lra. Qed.
Lemma hexcone_lip n h h' s v d : (0 <= n <= 6)%R -> (0 <= h < 360)%R -> (0 <= h' < 360)%R -> (0 <= s <= 1)%R -> (0 <= v <= 255)%R ->
  (Rabs (h' / 60 - h / 60) <= d)%R -> (d <= 1)%R -> (Rabs (hexcone n h' s v - hexcone n h s v) <= 255 * d)%R.
Proof.
  intros N H H' S V D D1.
  assert (W : exists w w', hexcone n h s v = (v - v * s * w)%R /\ hexcone n h' s v = (v - v * s * w')%R /\ (Rabs (w' - w) <= d)%R).
  { pose proof D as D'; apply Rabs_le_inv in D'.
    destruct (Rlt_dec (n + h / 60) 6) as [L|L], (Rlt_dec (n + h' / 60) 6) as [L'|L'].
    - rewrite !hexcone_low by lra; cbv zeta; eexists; eexists; split; [reflexivity|]; split; [reflexivity|]; apply weight_lip, Rabs_le; lra.
    - rewrite (hexcone_low n h), (hexcone_high n h') by lra; cbv zeta; eexists; eexists; split; [reflexivity|]; split; [reflexivity|].
      rewrite Rabs_minus_sym; apply weight_wrap; lra.
    - rewrite (hexcone_high n h), (hexcone_low n h') by lra; cbv zeta; eexists; eexists; split; [reflexivity|]; split; [reflexivity|].
      apply weight_wrap; lra.
    - rewrite !hexcone_high by lra; cbv zeta; eexists; eexists; split; [reflexivity|]; split; [reflexivity|]; apply weight_lip, Rabs_le; lra. }
  destruct W as (w & w' & -> & -> & W); replace (v - v * s * w' - (v - v * s * w))%R with (- ((w' - w) * (v * s)))%R by ring.
  rewrite Rabs_Ropp, Rabs_mult, Rmult_comm; apply Rmult_le_compat; try apply Rabs_pos; [|exact W].
  rewrite Rabs_right by nra; nra.
Qed.
Lemma hexcone_range n h s v : (0 <= n <= 6)%R -> (0 <= h < 360)%R -> (0 <= s <= 1)%R -> (0 <= v <= 255)%R -> (0 <= hexcone n h s v <= 255)%R.
Proof.
  intros N H S V; assert (W : exists w, hexcone n h s v = (v - v * s * w)%R /\ (0 <= w <= 1)%R).
  { destruct (Rlt_dec (n + h / 60) 6) as [L|L]; [rewrite hexcone_low by lra|rewrite hexcone_high by lra]; cbv zeta; eexists; (split; [reflexivity|]);
      unfold Rmax, Rmin; rcases; lra. }
  destruct W as (w & -> & W); assert (0 <= s * w <= 1)%R by nra; rewrite Rmult_assoc; nra.
Qed.
(** ** C185  hsv2rgb *)
(** a channel is the exact value cut to a whole number, give or take 2^-40 *)
Definition close (c : Z) (exact : R) : Prop := 0 <= c <= 255 /\ (IZR c - powerRZ 2 (-40) <= exact < IZR c + 1 + powerRZ 2 (-40))%R.
Lemma delta_value : (powerRZ 2 (-40) = 8192 * eps)%R.
Proof. unfold eps; change 8192%R with (IZR (2 ^ 13)); rewrite IZR_pow2, <- pw_add by lia; reflexivity. Qed.
Lemma delta_small : (0 < powerRZ 2 (-40) < 1 / 1000)%R.
Proof.
  split; [apply pw_pos|]; pose proof (pw2 40 ltac:(lia)) as Q; change (- (40)) with (-40) in Q; pose proof (pw_pos (-40)); set (u := powerRZ 2 (-40)) in *.
  assert (1000 < IZR (2 ^ 40))%R by (apply (IZR_lt 1000); lia); nra.
Qed.
Lemma to_u8_close y exact : (Rabs (y - exact) <= powerRZ 2 (-40))%R -> (0 <= exact <= 255)%R -> exists c, to_u8 y = Ok c /\ close c exact.
Proof.
  intros E B; pose proof delta_small as D; set (d := powerRZ 2 (-40)) in *; apply Rabs_le_inv in E.
  unfold to_u8; rewrite (proj2 (rleb_false y (-1))), (proj2 (rleb_false 256 y)) by lra; cbn [orb]; eexists; split; [reflexivity|].
  pose proof (Int_part_bounds y) as I; unfold close; fold d; destruct (Z_lt_le_dec (Int_part y) 0) as [N|N].
  - rewrite Z.max_l by lia; split; [lia|]; assert (IZR (Int_part y) <= -1)%R by (apply (IZR_le _ (-1)); lia); lra.
  - rewrite Z.max_r by lia; split; [|lra]; split; [lia|]; assert (Int_part y < 256); [apply lt_IZR|]; lra || lia.
Qed.
Theorem C185_hsv2rgb h s v out : double h -> (0 <= h < 360)%R -> (0 <= s <= 1)%R -> (0 <= v <= 255)%R -> hsv2rgb_rounded (h, s, v) out ->
  exists r g b, out = Ok [r; g; b] /\ close r (hexcone 5 h s v) /\ close g (hexcone 3 h s v) /\ close b (hexcone 1 h s v) /\
  forall m, v = IZR m -> m = r \/ m = g \/ m = b.
Proof.
  intros Dh Hh Hs Hv (z & Rz & O); destruct eps_value as [E0 E1]; pose proof delta_value as DV; pose proof delta_small as DS.
  assert (top_hue : (h <= 360 - powerRZ 2 (-44))%R).
  { destruct Dh as [b Mb]; apply means_fin_key in Mb; destruct Mb as (P & E & Q); destruct (key_units_steps b P E) as [K U]; rewrite U in Q.
    assert (T : (360 = IZR (steps 4645040803167600640) * unit_)%R /\ (360 - powerRZ 2 (-44) = IZR (steps 4645040803167600639) * unit_)%R).
    { replace (steps 4645040803167600640) with (360 * 2 ^ 1074) by (vm_compute; reflexivity).
      replace (steps 4645040803167600639) with (360 * 2 ^ 1074 - 2 ^ 1030) by (vm_compute; reflexivity).
      rewrite minus_IZR, mult_IZR, !IZR_pow2, Rmult_minus_distr_r, !Rmult_assoc by lia; unfold unit_; rewrite <- !pw_add.
      change (1074 + -1074) with 0; change (1030 + -1074) with (-44); rewrite powerRZ_O; split; ring. }
    destruct T as [T1 T2]; rewrite T2, Q; assert (KL : key b < 4645040803167600640).
    { apply Z.nle_gt; intros C; assert (S : steps 4645040803167600640 <= steps (key b)).
      { destruct (Z.eq_dec 4645040803167600640 (key b)) as [->|N]; [lia|]; apply Z.lt_le_incl, steps_up; [reflexivity|lia|lia]. }
      apply IZR_le in S; pose proof unit_pos; assert (360 <= h)%R by (rewrite T1, Q; apply Rmult_le_compat_r; lra); lra. }
    apply Rmult_le_compat_r; [left; apply unit_pos|]; apply IZR_le; destruct (Z.eq_dec (key b) 4645040803167600639) as [->|N]; [lia|].
    apply Z.lt_le_incl, steps_up; [lia|reflexivity|lia]. }
  assert (z0 : (0 <= z)%R) by (apply (xround_ge (h / 60) z 0); [apply (ext_int 0); lia|lra|exact Rz]).
  assert (z6 : (z < 6)%R).
  { assert (X : extended (6 - powerRZ 2 (-50))).
    { replace (6 - powerRZ 2 (-50))%R with (IZR (6 * 2 ^ 50 - 1) * powerRZ 2 (-50))%R; [apply ext_scaled; lia|].
      rewrite minus_IZR, mult_IZR; pose proof (pw2 50 ltac:(lia)) as Q; change (- (50)) with (-50) in Q; nra. }
    pose proof (pw_pos (-50)); assert (z <= 6 - powerRZ 2 (-50))%R; [|lra].
    apply (xround_le (h / 60) z _ X); [|exact Rz]; assert (powerRZ 2 (-44) = 64 * powerRZ 2 (-50))%R; [|lra].
    change 64%R with (IZR (2 ^ 6)); rewrite IZR_pow2, <- pw_add by lia; reflexivity. }
  assert (ez : (Rabs (z - h / 60) <= eps)%R) by (apply xround_error; [rewrite Rabs_right; lra|exact Rz]).
  pose proof (Int_part_bounds z) as IB; set (k := Int_part z) in *.
  assert (K : 0 <= k < 6) by (split; [assert (-1 < k) by (apply lt_IZR; lra); lia|apply lt_IZR; lra]).
  rewrite to_u8_IZR in O by lia; destruct O as (f & m0 & vmin & q0 & q1 & q & t0 & t1 & t2 & t & Rf & Rm0 & Rm & Rq0 & Rq1 & Rq & Rt0 & Rt1 & Rt2 & Rt & O).
  set (f0 := (z - IZR k)%R) in *; assert (F0 : (0 <= f0 < 1)%R) by (unfold f0; lra).
  assert (bound : forall a, (0 <= a <= 1)%R -> (Rabs (v * a) <= 256)%R) by (intros a A; rewrite Rabs_right; nra).
  assert (unit01 : forall a, (0 <= a <= 1)%R -> (Rabs a <= 256)%R) by (intros a A; rewrite Rabs_right; lra).
  assert (small : (10000 * eps < 1)%R) by (assert (10000 < IZR (2 ^ 53))%R by (apply (IZR_lt 10000); lia); nra).
  assert (ef : (Rabs (f - f0) <= 0 + eps)%R) by (eapply xround_step; [|apply unit01; lra| |exact Rf]; [rewrite abs_self; lra|lra]).
  assert (em0 : (Rabs (m0 - (1 - s)) <= 0 + eps)%R) by (eapply xround_step; [|apply unit01; lra| |exact Rm0]; [rewrite abs_self; lra|lra]).
  assert (em : (Rabs (vmin - v * (1 - s)) <= (0 + eps) * 255 + eps)%R).
  { eapply xround_step; [|apply bound; lra| |exact Rm]; [|lra]; rewrite !(Rmult_comm v); apply scaled_error; [lra|exact em0]. }
  assert (fs : (0 <= f0 * s <= 1)%R) by nra.
  assert (eq0 : (Rabs (q0 - f0 * s) <= (0 + eps) * 1 + eps)%R).
  { eapply xround_step; [|apply unit01; lra| |exact Rq0]; [apply scaled_error; [lra|exact ef]|lra]. }
  assert (eq1 : (Rabs (q1 - (1 - f0 * s)) <= (0 + eps) * 1 + eps + eps)%R).
  { eapply xround_step; [|apply unit01; lra| |exact Rq1]; [|lra]; replace (1 - q0 - (1 - f0 * s))%R with (- (q0 - f0 * s))%R by ring; rewrite Rabs_Ropp; exact eq0. }
  assert (eq : (Rabs (q - v * (1 - f0 * s)) <= ((0 + eps) * 1 + eps + eps) * 255 + eps)%R).
  { eapply xround_step; [|apply bound; lra| |exact Rq]; [|lra]; rewrite !(Rmult_comm v); apply scaled_error; [lra|exact eq1]. }
  assert (et0 : (Rabs (t0 - (1 - f0)) <= 0 + eps + eps)%R).
  { eapply xround_step; [|apply unit01; lra| |exact Rt0]; [|lra]; replace (1 - f - (1 - f0))%R with (- (f - f0))%R by ring; rewrite Rabs_Ropp; exact ef. }
  assert (gs : (0 <= (1 - f0) * s <= 1)%R) by nra.
  assert (et1 : (Rabs (t1 - (1 - f0) * s) <= (0 + eps + eps) * 1 + eps)%R).
  { eapply xround_step; [|apply unit01; lra| |exact Rt1]; [apply scaled_error; [lra|exact et0]|lra]. }
  assert (et2 : (Rabs (t2 - (1 - (1 - f0) * s)) <= (0 + eps + eps) * 1 + eps + eps)%R).
  { eapply xround_step; [|apply unit01; lra| |exact Rt2]; [|lra]; replace (1 - t1 - (1 - (1 - f0) * s))%R with (- (t1 - (1 - f0) * s))%R by ring; rewrite Rabs_Ropp; exact et1. }
  assert (et : (Rabs (t - v * (1 - (1 - f0) * s)) <= ((0 + eps + eps) * 1 + eps + eps) * 255 + eps)%R).
  { eapply xround_step; [|apply bound; lra| |exact Rt]; [|lra]; rewrite !(Rmult_comm v); apply scaled_error; [lra|exact et2]. }
  pose proof (hexcone_sector k z s v K ltac:(lra)) as HS; cbv zeta in HS; fold f0 in HS.
  assert (move : forall n x x0, (0 <= n <= 6)%R -> x0 = hexcone n (60 * z) s v -> (Rabs (x - x0) <= 1200 * eps)%R -> exists c, to_u8 x = Ok c /\ close c (hexcone n h s v)).
  { intros n x x0 Hn -> B; apply to_u8_close; [|apply hexcone_range; assumption].
    pose proof (hexcone_lip n h (60 * z) s v eps Hn Hh ltac:(lra) Hs Hv ltac:(replace (60 * z / 60)%R with z by field; exact ez) ltac:(lra)) as L.
    apply Rabs_le_inv in B, L; apply Rabs_le; lra. }
  assert (Bv : (Rabs (v - v) <= 1200 * eps)%R) by (rewrite abs_self; lra).
  assert (Bm : (Rabs (vmin - v * (1 - s)) <= 1200 * eps)%R) by lra.
  assert (Bq : (Rabs (q - v * (1 - f0 * s)) <= 1200 * eps)%R) by lra.
  assert (Bt : (Rabs (t - v * (1 - (1 - f0) * s)) <= 1200 * eps)%R) by lra.
  assert (C : k = 0 \/ k = 1 \/ k = 2 \/ k = 3 \/ k = 4 \/ k = 5) by lia.
  assert (finish : forall x5 x3 x1 y5 y3 y1, (y5, y3, y1) = (hexcone 5 (60 * z) s v, hexcone 3 (60 * z) s v, hexcone 1 (60 * z) s v) ->
    (Rabs (x5 - y5) <= 1200 * eps)%R -> (Rabs (x3 - y3) <= 1200 * eps)%R -> (Rabs (x1 - y1) <= 1200 * eps)%R ->
    x5 = v \/ x3 = v \/ x1 = v ->
    out = (let* a := to_u8 x5 in let* b := to_u8 x3 in let* c := to_u8 x1 in Ok [a; b; c]) ->
    exists r g b, out = Ok [r; g; b] /\ close r (hexcone 5 h s v) /\ close g (hexcone 3 h s v) /\ close b (hexcone 1 h s v) /\
      forall m, v = IZR m -> m = r \/ m = g \/ m = b).
  { intros x5 x3 x1 y5 y3 y1 Q B5 B3 B1 W ->; injection Q as Q5 Q3 Q1.
    destruct (move 5%R x5 y5 ltac:(lra) Q5 B5) as (c5 & T5 & C5), (move 3%R x3 y3 ltac:(lra) Q3 B3) as (c3 & T3 & C3), (move 1%R x1 y1 ltac:(lra) Q1 B1) as (c1 & T1 & C1).
    rewrite T5, T3, T1; cbn [bind]; exists c5, c3, c1; repeat (split; [auto|]); intros m E.
    assert (BM : 0 <= m <= 255) by (split; apply le_IZR; lra).
    assert (U : to_u8 v = Ok m) by (rewrite E; apply to_u8_IZR; lia).
    destruct W as [ -> | [ -> | -> ]]; [left|right; left|right; right]; congruence. }
  clearbody k; destruct C as [->|[->|[->|[->|[->| ->]]]]]; cbn [Z.eqb Pos.eqb sector] in O, HS; (eapply finish; [exact HS|eassumption|eassumption|eassumption|auto|exact O]).
Qed.
Print Assumptions C185_hsv2rgb.

(** some result exists *)
Lemma pw_mono a b : a <= b -> (powerRZ 2 a <= powerRZ 2 b)%R.
Proof.
  intros H; replace b with (a + (b - a)) by ring; rewrite pw_add; pose proof (pw_pos a); assert (1 <= powerRZ 2 (b - a))%R; [|nra].
  rewrite <- IZR_pow2 by lia; apply (IZR_le 1); assert (0 < 2 ^ (b - a)) by (apply Z.pow_pos_nonneg; lia); lia.
Qed.
Lemma ext_opp r : extended r -> extended (- r).
Proof. intros (m & e & M & E & ->); exists (- m), e; rewrite opp_IZR; repeat split; try lia; ring. Qed.
Lemma xround_positive x : (0 < x <= 512)%R -> exists r, xround x r.
Proof.
  intros X; assert (S : exists e, -16445 <= e <= 0 /\ (x < powerRZ 2 (64 + e))%R /\ (e = -16445 \/ (powerRZ 2 (63 + e) <= x)%R)).
  { destruct (Rle_dec (powerRZ 2 (63 + -16445)) x) as [L|L].
    - assert (T : ~ (powerRZ 2 (63 + 0) <= x)%R) by (rewrite <- IZR_pow2 by lia; assert (512 < IZR (2 ^ (63 + 0)))%R by (apply (IZR_lt 512); lia); lra).
      destruct (crossing (fun e => (powerRZ 2 (63 + e) <= x)%R) (fun e => Rle_dec _ _) (-16445) 0 ltac:(lia) L T) as (e & E & P & Q).
      exists e; split; [lia|]; split; [|auto]; replace (64 + e) with (63 + (e + 1)) by ring; lra.
    - exists (-16445); split; [lia|]; split; [|auto]; pose proof (pw_mono (63 + -16445) (64 + -16445) ltac:(lia)); lra. }
  destruct S as (e & E & U & L); pose proof (pw_pos e) as P; pose proof (pw2 (- e) ltac:(lia)) as Q; replace (- - e) with e in Q by ring.
  destruct (grid x (- e) ltac:(lia)) as (m & G & B); replace (- - e) with e in G by ring.
  rewrite pw_add, <- (IZR_pow2 64) in U by lia.
  assert (M : 0 <= m < 2 ^ 64).
  { split; [assert (-1 < m); [apply lt_IZR|lia]|apply lt_IZR]; nra. }
  assert (E1 : extended (IZR m * powerRZ 2 e)) by (apply ext_scaled; lia).
  assert (E2 : extended (IZR (m + 1) * powerRZ 2 e)).
  { destruct (Z.eq_dec (m + 1) (2 ^ 64)) as [T|T]; [|apply ext_scaled; lia].
    rewrite T; change (2 ^ 64) with (2 ^ 63 * 2 ^ 1); rewrite mult_IZR, (IZR_pow2 1), Rmult_assoc, <- pw_add by lia; apply ext_scaled; lia. }
  assert (side : forall r, extended r -> (r <= IZR m * powerRZ 2 e \/ IZR (m + 1) * powerRZ 2 e <= r)%R).
  { intros r (m' & e' & M' & Er & ->); destruct (Z_le_gt_dec e e') as [H|H].
    - replace e' with (e' - e + e) by ring; rewrite pw_add, <- Rmult_assoc, <- IZR_pow2, <- mult_IZR by lia.
      destruct (Z_le_gt_dec (m' * 2 ^ (e' - e)) m) as [K|K]; [left|right]; (apply Rmult_le_compat_r; [lra|apply IZR_le; lia]).
    - left; destruct L as [L|L]; [lia|]; rewrite pw_add, <- (IZR_pow2 63) in L by lia.
      assert (M3 : 2 ^ 63 <= m) by (assert (2 ^ 63 < m + 1); [apply lt_IZR; rewrite plus_IZR; nra|lia]).
      assert (H1 : (IZR m' <= IZR (2 ^ 64))%R) by (apply IZR_le; lia); assert (H2 : (powerRZ 2 e' <= powerRZ 2 (e - 1))%R) by (apply pw_mono; lia).
      assert (H3 : (IZR (2 ^ 64) * powerRZ 2 (e - 1) = IZR (2 ^ 63) * powerRZ 2 e)%R).
      { rewrite !IZR_pow2, <- !pw_add by lia; f_equal; ring. }
      apply IZR_le in M3; pose proof (pw_pos e'); assert (0 < IZR (2 ^ 64))%R by (apply IZR_lt; lia); nra. }
  rewrite plus_IZR in E2, side; set (lo := (IZR m * powerRZ 2 e)%R) in *; set (hi := ((IZR m + 1) * powerRZ 2 e)%R) in *.
  assert (Hh : (x < hi)%R) by (unfold hi; rewrite Rmult_plus_distr_r, Rmult_1_l; fold lo; lra).
  destruct (Rle_dec (x - lo) (hi - x)) as [C|C].
  - exists lo; split; [exact E1|]; intros r Hr; destruct (side r Hr); rewrite (Rabs_right (x - lo)) by lra; [rewrite Rabs_right by lra|rewrite Rabs_left1 by lra]; lra.
  - exists hi; split; [exact E2|]; intros r Hr; destruct (side r Hr); rewrite (Rabs_left1 (x - hi)) by lra; [rewrite Rabs_right by lra|rewrite Rabs_left1 by lra]; lra.
Qed.
Lemma xround_total x : (Rabs x <= 512)%R -> exists r, xround x r.
Proof.
  intros H; apply Rabs_le_inv in H; destruct (Rtotal_order x 0) as [N|[->|P]].
  - destruct (xround_positive (- x) ltac:(lra)) as (r & Er & Nr); exists (- r)%R; split; [apply ext_opp, Er|]; intros r' E'.
    specialize (Nr (- r')%R (ext_opp _ E')); replace (x - - r)%R with (- (- x - r))%R by ring; replace (x - r')%R with (- (- x - - r'))%R by ring; rewrite !Rabs_Ropp; exact Nr.
  - exists 0%R; apply xround_self, (ext_int 0); lia.
  - apply xround_positive; lra.
Qed.
Theorem C185_hsv2rgb_total h s v : (0 <= h < 360)%R -> (0 <= s <= 1)%R -> (0 <= v <= 255)%R -> exists out, hsv2rgb_rounded (h, s, v) out.
Proof.
  intros Hh Hs Hv; destruct eps_value as [E0 E1].
  destruct (xround_total (h / 60) ltac:(rewrite Rabs_right; lra)) as [z Rz].
  assert (z0 : (0 <= z)%R) by (apply (xround_ge (h / 60) z 0); [apply (ext_int 0); lia|lra|exact Rz]).
  assert (z6 : (z <= 6)%R) by (apply (xround_le (h / 60) z 6); [apply (ext_int 6); lia|lra|exact Rz]).
  pose proof (Int_part_bounds z) as IB; assert (K : 0 <= Int_part z <= 6) by (split; [assert (-1 < Int_part z) by (apply lt_IZR; lra); lia|apply le_IZR; lra]).
  destruct (xround_total (z - IZR (Int_part z)) ltac:(rewrite Rabs_right; lra)) as [f Rf].
  assert (one : extended 1) by (apply (ext_int 1); lia); assert (zero : extended 0) by (apply (ext_int 0); lia).
  assert (F : (0 <= f <= 1)%R) by (split; [eapply xround_ge; [exact zero| |exact Rf]; lra|eapply xround_le; [exact one| |exact Rf]; lra]).
  assert (within : forall x, (0 <= x <= 1)%R -> exists r, xround x r /\ (0 <= r <= 1)%R).
  { intros x X; destruct (xround_total x ltac:(rewrite Rabs_right; lra)) as [r R]; exists r; split; [exact R|].
    split; [eapply xround_ge; [exact zero| |exact R]; lra|eapply xround_le; [exact one| |exact R]; lra]. }
  assert (times : forall x, (0 <= x <= 1)%R -> exists r, xround (v * x) r) by (intros x X; apply xround_total; rewrite Rabs_right; nra).
  destruct (within (1 - s)%R ltac:(lra)) as (m0 & Rm0 & Bm0); destruct (times m0 Bm0) as [vmin Rm].
  destruct (within (f * s)%R ltac:(nra)) as (q0 & Rq0 & Bq0); destruct (within (1 - q0)%R ltac:(lra)) as (q1 & Rq1 & Bq1); destruct (times q1 Bq1) as [q Rq].
  destruct (within (1 - f)%R ltac:(lra)) as (t0 & Rt0 & Bt0); destruct (within (t0 * s)%R ltac:(nra)) as (t1 & Rt1 & Bt1);
    destruct (within (1 - t1)%R ltac:(lra)) as (t2 & Rt2 & Bt2); destruct (times t2 Bt2) as [t Rt].
  eexists; exists z; split; [exact Rz|]; rewrite to_u8_IZR by lia; exists f, m0, vmin, q0, q1, q, t0, t1, t2, t; repeat (split; [assumption|]); reflexivity.
Qed.
Print Assumptions C185_hsv2rgb_total.

(** ** rgb2hsv *)
(** the value is the largest channel, and the saturation is within 2^-49 of the exact one and from 0 to 1 *)
Theorem C185_saturation r g b h s v : channel r -> channel g -> channel b -> rgb2hsv_rounded r g b (h, s, v) ->
  let vmax := Z.max r (Z.max g b) in let vmin := Z.min r (Z.min g b) in
  v = IZR vmax /\ (0 <= s <= 1)%R /\ (Rabs (IZR vmax * (1 - s) - IZR vmin) <= 255 * powerRZ 2 (-49))%R.
Proof.
  unfold channel, rgb2hsv_rounded; cbv zeta; intros Cr Cg Cb (_ & S & V); set (vmax := Z.max r (Z.max g b)) in *; set (vmin := Z.min r (Z.min g b)) in *; split; [exact V|].
  assert (P : (0 < powerRZ 2 (-49))%R) by apply pw_pos.
  destruct (vmax =? 0) eqn:Z0.
  - subst s; assert (vmax = 0 /\ vmin = 0) as [-> ->] by lia; split; [lra|]; replace (0 * (1 - 0) - 0)%R with 0%R by ring; rewrite Rabs_R0; lra.
  - destruct S as (q & Rq & Rs); assert (0 < vmax <= 255 /\ 0 <= vmin <= vmax) as [B1 B2] by lia.
    assert (M : (0 < IZR vmax <= 255)%R) by (split; [apply IZR_lt|apply IZR_le]; lia).
    assert (m : (0 <= IZR vmin <= IZR vmax)%R) by (split; apply IZR_le; lia).
    assert (D : (IZR vmax * (IZR vmin / IZR vmax) = IZR vmin)%R) by (field; lra).
    set (x := (IZR vmin / IZR vmax)%R) in *; assert (X : (0 <= x <= 1)%R) by (split; nra).
    assert (Q : (0 <= q <= 1)%R) by (split; [apply (dround_ge x q 0); auto; [apply (double_int 0); lia|lra]|apply (dround_le x q 1); auto; [apply (double_int 1); lia|lra]]).
    split; [split; [apply (dround_ge (1 - q) s 0); auto; [apply (double_int 0); lia|lra]|apply (dround_le (1 - q) s 1); auto; [apply (double_int 1); lia|lra]]|].
    pose proof (dround_error x q ltac:(rewrite Rabs_right; lra) Rq) as E1; pose proof (dround_error (1 - q) s ltac:(rewrite Rabs_right; lra) Rs) as E2.
    assert (H : (powerRZ 2 (-49) = 2 * powerRZ 2 (-50))%R) by (change (-49) with (1 + -50); rewrite pw_add, powerRZ_1; reflexivity).
    apply Rabs_le_inv in E1, E2; rewrite <- D; replace (IZR vmax * (1 - s) - IZR vmax * x)%R with (IZR vmax * ((1 - q - s) + (q - x)))%R by ring.
    rewrite Rabs_mult, (Rabs_right (IZR vmax)) by lra; apply Rmult_le_compat; [lra|apply Rabs_pos|lra|apply Rabs_le; lra].
Qed.
Print Assumptions C185_saturation.

(** ** the hue *)
Lemma pw_inv e n : 0 <= e -> n = 2 ^ e -> powerRZ 2 (- e) = (/ IZR n)%R.
Proof.
  intros E ->; pose proof (pw2 e E) as P; assert (N : (IZR (2 ^ e) <> 0)%R) by (apply not_0_IZR; assert (0 < 2 ^ e) by (apply Z.pow_pos_nonneg; lia); lia).
  apply Rmult_eq_reg_r with (IZR (2 ^ e)); [|exact N]; rewrite Rinv_l by exact N; exact P.
Qed.
Lemma PI_range : (3 < PI <= 4)%R.
Proof. pose proof PI2_3_2; pose proof PI_4; lra. Qed.
Lemma degrees_range pi deg : dround PI pi -> dround (180 / pi) deg -> (45 <= deg <= 60)%R.
Proof.
  intros Rp Rd; pose proof PI_range; assert (P : (3 <= pi <= 4)%R).
  { split; [apply (dround_ge PI pi 3); auto; [apply (double_int 3); lia|lra]|apply (dround_le PI pi 4); auto; [apply (double_int 4); lia|lra]]. }
  assert (I : (/ 4 <= / pi <= / 3)%R) by (split; apply Rinv_le_contravar; lra).
  split; [apply (dround_ge (180 / pi) deg 45); auto; [apply (double_int 45); lia|unfold Rdiv; lra]|apply (dround_le (180 / pi) deg 60); auto; [apply (double_int 60); lia|unfold Rdiv; lra]].
Qed.
(** with twice the numerator n and the radicand w: 4 w = n^2 + 3 (g - b)^2 *)
Lemma radicand r g b : 4 * ((r - g) * (r - g) + (r - b) * (g - b)) = (r - g + (r - b)) * (r - g + (r - b)) + 3 * (g - b) * (g - b).
Proof. ring. Qed.
Lemma square_one x : x <> 0 -> 1 <= x * x.
Proof. nia. Qed.
Lemma half_double n : Z.abs n <= 2 ^ 20 -> double (/ 2 * IZR n).
Proof. intros H; replace (/ 2 * IZR n)%R with (IZR n * powerRZ 2 (-1))%R; [apply double_scaled; lia|]; replace (powerRZ 2 (-1)) with (/ 2)%R by (symmetry; apply (pw_inv 1 2); [lia|reflexivity]); ring. Qed.
Lemma root_above r g b d : dround (sqrt (IZR ((r - g) * (r - g) + (r - b) * (g - b)))) d -> channel r -> channel g -> channel b ->
  (Rabs (/ 2 * IZR (r - g + (r - b))) <= d)%R.
Proof.
  unfold channel; intros Rd Cr Cg Cb; pose proof (radicand r g b) as W; set (n := r - g + (r - b)) in *; set (w := (r - g) * (r - g) + (r - b) * (g - b)) in *.
  assert (N : Z.abs n <= 510) by (unfold n; lia); clearbody n w.
  assert (A : (Rabs (/ 2 * IZR n) = / 2 * IZR (Z.abs n))%R) by (rewrite Rabs_mult, abs_IZR, (Rabs_right (/ 2)) by lra; reflexivity).
  rewrite A; refine (dround_ge _ d _ _ _ Rd); [apply half_double; lia|].
  assert (Z1 : Z.abs n * Z.abs n <= 4 * w) by (rewrite Z.abs_square, W; pose proof (Z.square_nonneg (g - b)); rewrite <- Z.mul_assoc; lia); apply IZR_le in Z1; rewrite !mult_IZR in Z1.
  assert (0 <= IZR (Z.abs n))%R by (apply IZR_le; lia).
  rewrite <- (sqrt_square (/ 2 * IZR (Z.abs n))) by lra; apply sqrt_le_1_alt; lra.
Qed.
Lemma root_positive r g b d : dround (sqrt (IZR ((r - g) * (r - g) + (r - b) * (g - b)))) d -> (r <> g \/ g <> b) -> (1 <= d)%R.
Proof.
  intros Rd N; assert (W : 1 <= (r - g) * (r - g) + (r - b) * (g - b)).
  { pose proof (radicand r g b) as W; rewrite <- (Z.mul_assoc 3) in W; pose proof (Z.square_nonneg (r - g + (r - b))).
    destruct (Z.eq_dec g b) as [->|G]; [|pose proof (square_one (g - b) ltac:(lia)); set (p := (g - b) * (g - b)) in *; clearbody p; lia].
    pose proof (square_one (r - b) ltac:(lia)); replace ((r - b) * (b - b)) with 0 by ring; lia. }
  refine (dround_ge _ d 1 _ _ Rd); [apply (double_int 1); lia|]; rewrite <- sqrt_1; apply sqrt_le_1_alt, (IZR_le 1); exact W.
Qed.
(** the argument of the arc cosine, and how far it is from 1 if green and blue are different *)
Lemma cosine_range r g b d c : channel r -> channel g -> channel b -> (r <> g \/ g <> b) ->
  dround (sqrt (IZR ((r - g) * (r - g) + (r - b) * (g - b)))) d -> dround (/ 2 * IZR (r - g + (r - b)) / d) c -> (-1 <= c <= 1)%R.
Proof.
  intros Cr Cg Cb N Rd Rc; pose proof (root_above r g b d Rd Cr Cg Cb) as A; pose proof (root_positive r g b d Rd N) as P; apply Rabs_le_inv in A.
  set (x := (/ 2 * IZR (r - g + (r - b)))%R) in *; assert (I : (d * / d = 1)%R) by (field; lra); assert (0 < / d)%R by (apply Rinv_0_lt_compat; lra).
  assert (X : (-1 <= x / d <= 1)%R) by (unfold Rdiv; split; nra).
  split; [apply (dround_ge (x / d) c (-1)); auto; [apply (double_int (-1)); lia|lra]|apply (dround_le (x / d) c 1); auto; [apply (double_int 1); lia|lra]].
Qed.
Lemma cosine_below r g b d c : channel r -> channel g -> channel b -> g <> b ->
  dround (sqrt (IZR ((r - g) * (r - g) + (r - b) * (g - b)))) d -> dround (/ 2 * IZR (r - g + (r - b)) / d) c -> (c <= 1 - powerRZ 2 (-18))%R.
Proof.
  intros Cr Cg Cb N Rd Rc; pose proof (root_positive r g b d Rd (or_intror N)) as P; unfold channel in *.
  assert (V : (powerRZ 2 (-18) = / 262144)%R) by (apply (pw_inv 18 262144); [lia|reflexivity]).
  assert (D : double (1 - powerRZ 2 (-18))).
  { replace (1 - powerRZ 2 (-18))%R with (IZR (2 ^ 18 - 1) * powerRZ 2 (-18))%R; [apply double_scaled; lia|]; rewrite V; change (2 ^ 18 - 1) with 262143; lra. }
  refine (dround_le _ c _ D _ Rc); rewrite V; pose proof (radicand r g b) as W; set (n := r - g + (r - b)) in *; set (w := (r - g) * (r - g) + (r - b) * (g - b)) in *.
  assert (B : Z.abs n <= 510) by (unfold n; lia); pose proof (square_one (g - b) ltac:(lia)) as G; rewrite <- (Z.mul_assoc 3) in W; set (p := (g - b) * (g - b)) in *; clearbody n w p.
  assert (I : (d * / d = 1)%R) by (field; lra); assert (J : (0 < / d)%R) by (apply Rinv_0_lt_compat; lra).
  destruct (Z_le_gt_dec n 0) as [S|S].
  - apply IZR_le in S; unfold Rdiv; assert (/ 2 * IZR n * / d <= 0)%R by nra; lra.
  - assert (Q : (IZR (512 * n + 1) * powerRZ 2 (-10) <= d)%R).
    { refine (dround_ge _ d _ _ _ Rd); [apply double_scaled; lia|].
      assert (V2 : (powerRZ 2 (-10) = / 1024)%R) by (apply (pw_inv 10 1024); [lia|reflexivity]); rewrite V2.
      assert (Z1 : (512 * n + 1) * (512 * n + 1) <= 1048576 * w) by nia; apply IZR_le in Z1; rewrite !(mult_IZR _ w), mult_IZR in Z1.
      assert (0 <= IZR (512 * n + 1))%R by (apply IZR_le; lia); rewrite <- (sqrt_square (IZR (512 * n + 1) * / 1024)) by lra; apply sqrt_le_1_alt; lra. }
    assert (V2 : (powerRZ 2 (-10) = / 1024)%R) by (apply (pw_inv 10 1024); [lia|reflexivity]); rewrite V2, plus_IZR, mult_IZR in Q.
    assert (BR : (1 <= IZR n <= 510)%R) by (split; apply IZR_le; lia).
    assert (K : (/ 2 * IZR n <= (1 - / 262144) * d)%R) by nra.
    unfold Rdiv; apply Rle_trans with ((1 - / 262144) * d * / d)%R; [apply Rmult_le_compat_r; lra|]; rewrite Rmult_assoc, I; lra.
Qed.
Lemma angle_above c : (-1 <= c <= 1 - powerRZ 2 (-18))%R -> (powerRZ 2 (-9) <= acos c)%R.
Proof.
  assert (V : (powerRZ 2 (-18) = / 262144)%R) by (apply (pw_inv 18 262144); [lia|reflexivity]); assert (V2 : (powerRZ 2 (-9) = / 512)%R) by (apply (pw_inv 9 512); [lia|reflexivity]); rewrite V, V2; intros C.
  pose proof (acos_bound c) as B; destruct (Rle_dec (/ 512) (acos c)) as [H|H]; [exact H|exfalso].
  pose proof PI_range; destruct (Req_dec (acos c) 0) as [Z0|Z0].
  { pose proof (cos_acos c ltac:(lra)) as Q; rewrite Z0, cos_0 in Q; lra. }
  pose proof (sin_lt_x (acos c) ltac:(lra)) as S; pose proof (sin_acos c ltac:(lra)) as Q; rewrite Q in S.
  assert (0 <= c)%R.
  { destruct (Rle_dec 0 c) as [T|T]; [exact T|exfalso]; assert (0 < cos (acos c))%R by (apply cos_gt_0; lra); rewrite cos_acos in * by lra; lra. }
  assert (T : (sqrt (/ 512 * / 512) <= sqrt (1 - c²))%R) by (apply sqrt_le_1_alt; unfold Rsqr; nra).
  rewrite sqrt_square in T by lra; lra.
Qed.
(** every colour has a hue: the argument of the arc cosine is never outside its domain, and the hue is from 0 to below 360 *)
Theorem C185_total r g b : channel r -> channel g -> channel b -> exists hsv, rgb2hsv_rounded r g b hsv.
Proof.
  intros Cr Cg Cb; unfold rgb2hsv_rounded; set (vmax := Z.max r (Z.max g b)); set (vmin := Z.min r (Z.min g b)).
  assert (H : exists h, if vmax =? vmin then h = 0%R else exists h1, hue_angle r g b h1 /\ if b <=? g then h = h1 else dround (360 - h1) h).
  { destruct (vmax =? vmin) eqn:E; [eauto|]; assert (N : r <> g \/ g <> b) by (unfold vmax, vmin in E; lia).
    destruct (dround_total (sqrt (IZR ((r - g) * (r - g) + (r - b) * (g - b))))) as [d Rd].
    { rewrite Rabs_right by (apply Rle_ge, sqrt_pos); rewrite <- (sqrt_square 1000) by lra; apply sqrt_le_1_alt; rewrite <- mult_IZR; apply IZR_le; unfold channel in *; nia. }
    pose proof (root_above r g b d Rd Cr Cg Cb) as A; pose proof (root_positive r g b d Rd N) as P; apply Rabs_le_inv in A.
    assert (I : (d * / d = 1)%R) by (field; lra); assert (0 < / d)%R by (apply Rinv_0_lt_compat; lra).
    destruct (dround_total (/ 2 * IZR (r - g + (r - b)) / d)) as [c Rc]; [apply Rabs_le; unfold Rdiv; split; nra|].
    pose proof (cosine_range r g b d c Cr Cg Cb N Rd Rc) as C; pose proof (acos_bound c) as AB; pose proof PI_range as PR.
    destruct (dround_total (acos c)) as [a Ra]; [rewrite Rabs_right; lra|].
    assert (A0 : (0 <= a <= 4)%R) by (split; [apply (dround_ge (acos c) a 0); auto; [apply (double_int 0); lia|lra]|apply (dround_le (acos c) a 4); auto; [apply (double_int 4); lia|lra]]).
    assert (L : lib_acos c a).
    { repeat split; try lra; [destruct Ra as (k & _ & M); exists k; exact M| |].
      - intros ->; rewrite acos_1 in Ra; apply dround_exact in Ra; [exact Ra|apply (double_int 0); lia].
      - rewrite Rabs_minus_sym; apply dround_error; [rewrite Rabs_right; lra|exact Ra]. }
    destruct (dround_total PI) as [pi Rp]; [rewrite Rabs_right; lra|].
    assert (B3 : (3 <= pi)%R) by (apply (dround_ge PI pi 3); auto; [apply (double_int 3); lia|lra]).
    assert (J : (0 < / pi <= / 3)%R) by (split; [apply Rinv_0_lt_compat; lra|apply Rinv_le_contravar; lra]).
    destruct (dround_total (180 / pi)) as [deg Rdeg]; [rewrite Rabs_right; unfold Rdiv; lra|].
    pose proof (degrees_range pi deg Rp Rdeg) as BD.
    assert (PB : (0 <= a * deg <= 240)%R) by (split; nra).
    destruct (dround_total (a * deg)) as [h1 Rh]; [rewrite Rabs_right; lra|].
    assert (HB : (0 <= h1 <= 240)%R) by (split; [apply (dround_ge (a * deg) h1 0); auto; [apply (double_int 0); lia|lra]|apply (dround_le (a * deg) h1 240); auto; [apply (double_int 240); lia|lra]]).
    assert (HA : hue_angle r g b h1) by (exists d, c, a, pi, deg; auto 10).
    destruct (b <=? g); [exists h1, h1; auto|]; destruct (dround_total (360 - h1)) as [h Hh]; [rewrite Rabs_right; lra|]; exists h, h1; auto. }
  assert (S : exists s, if vmax =? 0 then s = 0%R else exists q, dround (IZR vmin / IZR vmax) q /\ dround (1 - q) s).
  { destruct (vmax =? 0) eqn:E; [eauto|]; unfold channel in *.
    assert (M : (0 < IZR vmax)%R) by (apply IZR_lt; lia); assert (m : (0 <= IZR vmin <= IZR vmax)%R) by (split; apply IZR_le; lia).
    assert (I : (IZR vmax * / IZR vmax = 1)%R) by (field; lra); assert (0 < / IZR vmax)%R by (apply Rinv_0_lt_compat; lra).
    assert (X : (0 <= IZR vmin / IZR vmax <= 1)%R) by (unfold Rdiv; split; nra).
    destruct (dround_total (IZR vmin / IZR vmax)) as [q Rq]; [rewrite Rabs_right; lra|].
    assert (Q : (0 <= q <= 1)%R) by (split; [apply (dround_ge _ q 0 (double_int 0 ltac:(lia)) (proj1 X) Rq)|apply (dround_le _ q 1 (double_int 1 ltac:(lia)) (proj2 X) Rq)]).
    destruct (dround_total (1 - q)) as [s Rs]; [rewrite Rabs_right; lra|]; exists s, q; auto. }
  destruct H as [h H], S as [s S]; exists (h, s, IZR vmax); auto.
Qed.
Theorem C185_hue r g b h s v : channel r -> channel g -> channel b -> rgb2hsv_rounded r g b (h, s, v) ->
  double h /\ (0 <= h < 360)%R.
Proof.
  intros Cr Cg Cb (H & _); destruct (_ =? _) eqn:E; [subst h; split; [apply (double_int 0); lia|lra]|].
  assert (N : r <> g \/ g <> b) by lia; destruct H as (h1 & (d & c & a & pi & deg & Rd & Rc & (Bc & Da & A0 & A1 & Ea) & Rp & Rdeg & Rh) & H).
  pose proof (degrees_range pi deg Rp Rdeg) as BD; pose proof (acos_bound c) as AB; pose proof PI_range as PR; pose proof (pw_pos (-50)) as P50.
  assert (V50 : (powerRZ 2 (-50) <= / 1024)%R) by (replace (/ 1024)%R with (powerRZ 2 (-10)) by (apply (pw_inv 10 1024); [lia|reflexivity]); apply pw_mono; lia).
  apply Rabs_le_inv in Ea; assert (A4 : (a <= 4 + / 1024)%R) by lra.
  assert (PB : (0 <= a * deg <= 241)%R) by (split; nra).
  assert (HB : (0 <= h1 <= 241)%R) by (split; [apply (dround_ge (a * deg) h1 0); auto; [apply (double_int 0); lia|lra]|apply (dround_le (a * deg) h1 241); auto; [apply (double_int 241); lia|lra]]).
  destruct (b <=? g) eqn:BG.
  - subst h; split; [destruct Rh as (k & _ & M); exists k; exact M|lra].
  - split; [destruct H as (k & _ & M); exists k; exact M|].
    pose proof (cosine_below r g b d c Cr Cg Cb ltac:(lia) Rd Rc) as C; pose proof (angle_above c ltac:(lra)) as AA.
    assert (V9 : (powerRZ 2 (-9) = / 512)%R) by (apply (pw_inv 9 512); [lia|reflexivity]); rewrite V9 in AA.
    assert (V5 : (powerRZ 2 (-5) = / 32)%R) by (apply (pw_inv 5 32); [lia|reflexivity]).
    assert (D5 : double (/ 32)) by (rewrite <- V5, <- (Rmult_1_l (powerRZ 2 (-5))); apply (double_scaled 1); lia).
    assert (H5 : (/ 32 <= h1)%R) by (refine (dround_ge _ h1 _ D5 _ Rh); nra).
    assert (D6 : double (360 - / 32)) by (replace (360 - / 32)%R with (IZR 11519 * powerRZ 2 (-5))%R by (rewrite V5; lra); apply double_scaled; lia).
    split; [apply (dround_ge (360 - h1) h 0); auto; [apply (double_int 0); lia|lra]|].
    assert (h <= 360 - / 32)%R by (apply (dround_le (360 - h1) h _ D6); [lra|exact H]); lra.
Qed.

(** ** how near the hue is to the exact one *)
Lemma dround_err k x r : 0 <= k <= 50 -> (Rabs x <= IZR (2 ^ (52 - k)))%R -> dround x r -> (Rabs (x - r) <= powerRZ 2 (- k))%R.
Proof.
  intros K H R; destruct (grid x k ltac:(lia)) as (m & G & B).
  assert (D : double (IZR m * powerRZ 2 (- k))).
  { apply double_scaled; [|lia]; apply Rabs_le_inv in H; assert (P : (0 < IZR (2 ^ k))%R) by (apply IZR_lt, Z.pow_pos_nonneg; lia).
    assert (Q : (IZR (2 ^ (52 - k)) * IZR (2 ^ k) = IZR (2 ^ 52))%R) by (rewrite <- mult_IZR, <- Z.pow_add_r by lia; f_equal; f_equal; ring).
    assert (- 2 ^ 52 - 1 <= m <= 2 ^ 52); [|lia].
    split; apply le_IZR; [rewrite minus_IZR, opp_IZR|]; nra. }
  pose proof (dround_near x r _ D R) as N; eapply Rle_trans; [exact N|]; rewrite Rabs_right by lra; lra.
Qed.
Lemma acos_lip c c' : (Rabs c <= 1 - / 262144)%R -> (Rabs c' <= 1 - / 262144)%R -> (Rabs (acos c - acos c') <= 512 * Rabs (c - c'))%R.
Proof.
  intros H H'; apply Rabs_le_inv in H, H'.
  destruct (MVT_abs acos (fun x => -1 / sqrt (1 - x²))%R c' c) as (y & -> & Y).
  { intros y Y; assert (B : (-1 < y < 1)%R) by (revert Y; unfold Rmin, Rmax; repeat destruct (Rle_dec _ _); lra).
    eapply derive_pt_eq_1, (derive_pt_acos y B). }
  apply Rmult_le_compat_r; [apply Rabs_pos|].
  assert (B : (-1 + / 262144 <= y <= 1 - / 262144)%R) by (revert Y; unfold Rmin, Rmax; repeat destruct (Rle_dec _ _); lra).
  assert (S : (/ 512 <= sqrt (1 - y²))%R) by (rewrite <- (sqrt_square (/ 512)) by lra; apply sqrt_le_1_alt; unfold Rsqr; nra).
  unfold Rdiv; rewrite Rabs_mult, (Rabs_left (-1)) by lra; replace (- -1)%R with 1%R by ring; rewrite Rmult_1_l, Rabs_right by (apply Rle_ge; left; apply Rinv_0_lt_compat; lra).
  replace 512%R with (/ / 512)%R by field; apply Rinv_le_contravar; lra.
Qed.
Lemma root_gap r g b : channel r -> channel g -> channel b -> g <> b ->
  (Rabs (/ 2 * IZR (r - g + (r - b))) + / 1024 <= sqrt (IZR ((r - g) * (r - g) + (r - b) * (g - b))))%R.
Proof.
  unfold channel; intros Cr Cg Cb N; pose proof (radicand r g b) as W; pose proof (square_one (g - b) ltac:(lia)) as G; rewrite <- (Z.mul_assoc 3) in W.
  set (n := r - g + (r - b)) in *; set (w := (r - g) * (r - g) + (r - b) * (g - b)) in *; set (p := (g - b) * (g - b)) in *.
  assert (B : Z.abs n <= 510) by (unfold n; lia); clearbody n w p.
  rewrite Rabs_mult, <- abs_IZR, (Rabs_right (/ 2)) by lra; rewrite <- Z.abs_square in W; set (a := Z.abs n) in *; assert (A : 0 <= a) by (unfold a; lia); clearbody a.
  assert (Z1 : (512 * a + 1) * (512 * a + 1) <= 1048576 * w) by nia; apply IZR_le in Z1; rewrite !(mult_IZR _ w), mult_IZR, plus_IZR, mult_IZR in Z1.
  assert (0 <= IZR a)%R by (apply IZR_le; lia); rewrite <- (sqrt_square (/ 2 * IZR a + / 1024)) by lra; apply sqrt_le_1_alt; lra.
Qed.
Lemma quotient_gap x d : (Rabs x <= 255)%R -> (Rabs x + / 1024 <= d)%R -> (Rabs (x / d) <= 1 - / 262144)%R.
Proof.
  intros X D; pose proof (Rabs_pos x); assert (I : (d * / d = 1)%R) by (field; lra); assert (J : (0 < / d)%R) by (apply Rinv_0_lt_compat; lra).
  unfold Rdiv; rewrite Rabs_mult, (Rabs_right (/ d)) by lra.
  apply Rle_trans with ((1 - / 262144) * d * / d)%R; [apply Rmult_le_compat_r; [lra|nra]|]; rewrite Rmult_assoc, I; lra.
Qed.
(** the exact direction and the rounded one *)
Lemma angle_error r g b d c : channel r -> channel g -> channel b -> (r <> g \/ g <> b) ->
  dround (sqrt (IZR ((r - g) * (r - g) + (r - b) * (g - b)))) d -> dround (/ 2 * IZR (r - g + (r - b)) / d) c ->
  (Rabs (acos c - acos (/ 2 * IZR (r - g + (r - b)) / sqrt (IZR ((r - g) * (r - g) + (r - b) * (g - b))))) <= powerRZ 2 (-33))%R.
Proof.
  intros Cr Cg Cb N Rd Rc; destruct (Z.eq_dec g b) as [E|NE].
  - subst b; replace ((r - g) * (r - g) + (r - g) * (g - g)) with (Z.abs (r - g) * Z.abs (r - g)) in * by (rewrite Z.abs_square; ring).
    rewrite mult_IZR, sqrt_square in * by (apply IZR_le; lia); apply dround_exact in Rd; [|unfold channel in *; apply double_int; lia]; subst d.
    assert (A : (IZR (Z.abs (r - g)) <> 0)%R) by (apply not_0_IZR; lia).
    assert (X : exists s, (s = 1 \/ s = -1) /\ (/ 2 * IZR (r - g + (r - g)) / IZR (Z.abs (r - g)) = IZR s)%R).
    { rewrite plus_IZR; destruct (Z_le_gt_dec 0 (r - g)) as [L|L]; [exists 1; rewrite Z.abs_eq in * by lia|exists (-1); rewrite Z.abs_neq, opp_IZR in * by lia]; (split; [auto|]).
      - field; exact A.
      - field; intros Z0; apply A; rewrite Z0; ring. }
    destruct X as (s & Hs & X); rewrite X in *; apply dround_exact in Rc; [|apply double_int; lia]; rewrite Rc, abs_self; left; apply pw_pos.
  - pose proof (root_gap r g b Cr Cg Cb NE) as G; pose proof (root_positive r g b d Rd N) as P.
    assert (XB : (Rabs (/ 2 * IZR (r - g + (r - b))) <= 255)%R).
    { unfold channel in *; assert (-510 <= IZR (r - g + (r - b)) <= 510)%R by (split; apply IZR_le; lia); apply Rabs_le; lra. }
    assert (X2 : double (Rabs (/ 2 * IZR (r - g + (r - b))) + / 1024)).
    { rewrite Rabs_mult, <- abs_IZR, (Rabs_right (/ 2)) by lra; replace (/ 2 * IZR (Z.abs (r - g + (r - b))) + / 1024)%R with (IZR (512 * Z.abs (r - g + (r - b)) + 1) * powerRZ 2 (-10))%R;
        [apply double_scaled; unfold channel in *; lia|]; replace (powerRZ 2 (-10)) with (/ 1024)%R by (symmetry; apply (pw_inv 10 1024); [lia|reflexivity]); rewrite plus_IZR, mult_IZR; lra. }
    pose proof (dround_ge _ d _ X2 G Rd) as D.
    assert (WB : (sqrt (IZR ((r - g) * (r - g) + (r - b) * (g - b))) <= 256 * 2)%R).
    { rewrite <- (sqrt_square (256 * 2)) by lra; apply sqrt_le_1_alt; rewrite <- !mult_IZR; apply IZR_le; unfold channel in *; nia. }
    assert (V43 : (powerRZ 2 (-43) = 2 * powerRZ 2 (-44))%R) by (change (-43) with (1 + -44); rewrite pw_add, powerRZ_1; reflexivity).
    assert (V50 : (powerRZ 2 (-50) <= powerRZ 2 (-43))%R) by (apply pw_mono; lia).
    assert (V42 : (powerRZ 2 (-42) = 2 * powerRZ 2 (-43))%R) by (change (-42) with (1 + -43); rewrite pw_add, powerRZ_1; reflexivity).
    set (x := (/ 2 * IZR (r - g + (r - b)))%R) in *; set (w := sqrt (IZR ((r - g) * (r - g) + (r - b) * (g - b)))) in *.
    assert (EW : (Rabs (w - d) <= powerRZ 2 (-43))%R) by (apply (dround_err 43); [lia| |exact Rd]; rewrite Rabs_right by (apply Rle_ge, sqrt_pos); change (2 ^ (52 - 43)) with 512; lra).
    pose proof (quotient_gap x d XB D) as Q1; pose proof (quotient_gap x w XB G) as Q2.
    assert (C1 : (Rabs c <= 1 - / 262144)%R).
    { assert (DD : double (1 - / 262144)).
      { replace (1 - / 262144)%R with (IZR (2 ^ 18 - 1) * powerRZ 2 (-18))%R; [apply double_scaled; lia|]; replace (powerRZ 2 (-18)) with (/ 262144)%R by (symmetry; apply (pw_inv 18 262144); [lia|reflexivity]); change (2 ^ 18 - 1) with 262143; lra. }
      assert (DN : double (- (1 - / 262144))).
      { replace (- (1 - / 262144))%R with (IZR (1 - 2 ^ 18) * powerRZ 2 (-18))%R; [apply double_scaled; lia|]; replace (powerRZ 2 (-18)) with (/ 262144)%R by (symmetry; apply (pw_inv 18 262144); [lia|reflexivity]); change (1 - 2 ^ 18) with (-262143); lra. }
      apply Rabs_le_inv in Q1; apply Rabs_le; split; [apply (dround_ge _ c _ DN (proj1 Q1) Rc)|apply (dround_le _ c _ DD (proj2 Q1) Rc)]. }
    assert (W1 : (/ 1024 <= w)%R) by (pose proof (Rabs_pos x); lra).
    assert (EC : (Rabs (c - x / w) <= powerRZ 2 (-43) + powerRZ 2 (-43) * 1)%R).
    { replace (c - x / w)%R with (- (x / d - c) + (x / w * ((w - d) * / d)))%R by (field; lra).
      eapply Rle_trans; [apply Rabs_triang|]; apply Rplus_le_compat.
      - rewrite Rabs_Ropp; pose proof (dround_error (x / d) c ltac:(lra) Rc); lra.
      - rewrite !Rabs_mult, <- (Rmult_1_l (powerRZ 2 (-43) * 1)); apply Rmult_le_compat; [apply Rabs_pos|apply Rmult_le_pos; apply Rabs_pos|lra|].
        apply Rmult_le_compat; [apply Rabs_pos|apply Rabs_pos|exact EW|].
        assert (0 < / d)%R by (apply Rinv_0_lt_compat; lra); rewrite Rabs_right by lra; rewrite <- Rinv_1; apply Rinv_le_contravar; lra. }
    pose proof (acos_lip c (x / w) C1 Q2) as L; eapply Rle_trans; [exact L|].
    assert (V33 : (powerRZ 2 (-33) = 1024 * powerRZ 2 (-43))%R) by (change 1024%R with (IZR (2 ^ 10)); rewrite IZR_pow2, <- pw_add by lia; reflexivity).
    lra.
Qed.
Lemma product_bound x y X Y : (- X <= x <= X -> 0 <= y <= Y -> - (X * Y) <= x * y <= X * Y)%R.
Proof. intros; split; nra. Qed.
(** the angle whose cosine and sine are the coordinates of the colour in the plane of hues *)
Lemma exact_angle r g b : channel r -> channel g -> channel b -> (r <> g \/ g <> b) ->
  let x := (/ 2 * IZR (r - g + (r - b)))%R in let w := sqrt (IZR ((r - g) * (r - g) + (r - b) * (g - b))) in let A := acos (x / w) in
  (cos A * w = x)%R /\ (sin A * w = sqrt 3 / 2 * IZR (Z.abs (g - b)))%R /\ (0 <= A <= PI)%R /\ (g <> b -> 0 < A)%R.
Proof.
  intros Cr Cg Cb N x w A; assert (Z1 : 1 <= (r - g) * (r - g) + (r - b) * (g - b)).
  { pose proof (radicand r g b) as W; rewrite <- (Z.mul_assoc 3) in W; pose proof (Z.square_nonneg (r - g + (r - b))).
    destruct (Z.eq_dec g b) as [->|G]; [|pose proof (square_one (g - b) ltac:(lia)); set (p := (g - b) * (g - b)) in *; clearbody p; lia].
    pose proof (square_one (r - b) ltac:(lia)); replace ((r - b) * (b - b)) with 0 by ring; lia. }
  assert (W2 : (w * w = x * x + 3 / 4 * (IZR (Z.abs (g - b)) * IZR (Z.abs (g - b))))%R).
  { unfold w; rewrite sqrt_sqrt by (apply IZR_le; lia); pose proof (radicand r g b) as W; apply (f_equal IZR) in W.
    rewrite <- mult_IZR, Z.abs_square; rewrite !(plus_IZR (_ * _)), !(mult_IZR 4), <- !(Z.mul_assoc 3), !(mult_IZR 3), (mult_IZR (r - g + (r - b))) in W; rewrite plus_IZR in W |- *; unfold x; lra. }
  assert (W1 : (1 <= w)%R) by (unfold w; rewrite <- sqrt_1; apply sqrt_le_1_alt, (IZR_le 1); exact Z1).
  assert (P : (0 <= IZR (Z.abs (g - b)))%R) by (apply IZR_le; lia); set (p := IZR (Z.abs (g - b))) in *.
  assert (XW : (- w <= x <= w)%R) by (split; nra).
  assert (I : (w * / w = 1)%R) by (field; lra); assert (J : (0 < / w)%R) by (apply Rinv_0_lt_compat; lra).
  assert (C : (-1 <= x / w <= 1)%R) by (unfold Rdiv; split; nra).
  assert (CA : (cos A = x / w)%R) by (apply cos_acos; exact C).
  assert (CW : (cos A * w = x)%R) by (rewrite CA; field; lra).
  pose proof (acos_bound (x / w)) as AB; fold A in AB; pose proof (sin_ge_0 A (proj1 AB) (proj2 AB)) as S0; pose proof (sqrt_pos 3) as S3; pose proof (sqrt_sqrt 3 ltac:(lra)) as S33.
  split; [exact CW|]; split; [|split; [exact AB|]].
  - apply Rsqr_inj; [nra|nra|]; unfold Rsqr; pose proof (sin2_cos2 A) as Q; unfold Rsqr in Q.
    transitivity (w * w - (cos A * w) * (cos A * w))%R; [replace (w * w)%R with ((sin A * sin A + cos A * cos A) * (w * w))%R at 1 by (rewrite Q; ring); ring|].
    rewrite CW, W2; replace (sqrt 3 / 2 * p * (sqrt 3 / 2 * p))%R with (sqrt 3 * sqrt 3 / 4 * (p * p))%R by field; rewrite S33; field.
  - intros NE; destruct (Rle_lt_or_eq_dec 0 A (proj1 AB)) as [L|E]; [exact L|exfalso]; rewrite <- E, cos_0 in CA.
    pose proof (root_gap r g b Cr Cg Cb NE) as G; fold x w in G; pose proof (Rle_abs x); assert (x = w)%R by (apply Rmult_eq_reg_r with (/ w)%R; [|lra]; unfold Rdiv in CA; lra); lra.
Qed.
(** the hue is within 2^-26 degrees of the direction of the colour: of the angle with these cosine and sine *)
Theorem C185_direction r g b h s v : channel r -> channel g -> channel b -> rgb2hsv_rounded r g b (h, s, v) ->
  exists H, (0 <= H < 360)%R /\ (Rabs (h - H) <= powerRZ 2 (-26))%R /\
    let w := sqrt (IZR (r * r + g * g + b * b - r * g - g * b - b * r)) in
    (cos (H * (PI / 180)) * w = IZR (2 * r - g - b) / 2 /\ sin (H * (PI / 180)) * w = sqrt 3 / 2 * IZR (g - b))%R.
Proof.
  intros Cr Cg Cb (H & _); replace (r * r + g * g + b * b - r * g - g * b - b * r) with ((r - g) * (r - g) + (r - b) * (g - b)) by ring.
  replace (2 * r - g - b) with (r - g + (r - b)) by ring; destruct (_ =? _) eqn:E.
  { exists 0%R; subst h; assert (r = g /\ b = g) as [-> ->] by lia; split; [lra|]; split; [rewrite abs_self; left; apply pw_pos|]; cbv zeta.
    replace ((g - g) * (g - g) + (g - g) * (g - g)) with 0 by ring; replace (g - g + (g - g)) with 0 by ring; replace (g - g) with 0 by ring; rewrite sqrt_0; lra. }
  assert (N : r <> g \/ g <> b) by lia; destruct H as (h1 & (d & c & a & pi & deg & Rd & Rc & (Bc & Da & A0 & A1 & Ea) & Rp & Rdeg & Rh) & H).
  pose proof (angle_error r g b d c Cr Cg Cb N Rd Rc) as AE; pose proof (exact_angle r g b Cr Cg Cb N) as XA; cbv zeta in XA.
  set (x := (/ 2 * IZR (r - g + (r - b)))%R) in *; set (w := sqrt (IZR ((r - g) * (r - g) + (r - b) * (g - b)))) in *; set (A := acos (x / w)) in *.
  destruct XA as (CW & SW & AB & AP); pose proof PI_range as PR; pose proof (degrees_range pi deg Rp Rdeg) as BD.
  assert (P3 : (3 <= pi)%R) by (apply (dround_ge PI pi 3); auto; [apply (double_int 3); lia|lra]).
  pose proof (dround_error PI pi ltac:(rewrite Rabs_right; lra) Rp) as EP.
  assert (EU : exists u, (u = powerRZ 2 (-50))%R /\ (0 < u)%R) by (eexists; split; [reflexivity|apply pw_pos]); destruct EU as (u & U & U0).
  assert (pow : forall k, 0 <= k -> powerRZ 2 (k - 50) = (IZR (2 ^ k) * u)%R) by (intros k K; rewrite IZR_pow2, U, <- pw_add by lia; reflexivity).
  pose proof (pow 17 ltac:(lia)) as V33; pose proof (pow 4 ltac:(lia)) as V46; pose proof (pow 6 ltac:(lia)) as V44; pose proof (pow 7 ltac:(lia)) as V43; pose proof (pow 24 ltac:(lia)) as V26.
  change (17 - 50) with (-33) in V33; change (4 - 50) with (-46) in V46; change (6 - 50) with (-44) in V44; change (7 - 50) with (-43) in V43; change (24 - 50) with (-26) in V26.
  change (2 ^ 17) with 131072 in V33; change (2 ^ 4) with 16 in V46; change (2 ^ 6) with 64 in V44; change (2 ^ 7) with 128 in V43; change (2 ^ 24) with 16777216 in V26.
  assert (US : (u <= / 1073741824)%R) by (rewrite U; replace (/ 1073741824)%R with (powerRZ 2 (-30)) by (apply (pw_inv 30 1073741824); [lia|reflexivity]); apply pw_mono; lia).
  rewrite <- U in Ea, EP; rewrite V33 in AE; apply Rabs_le_inv in Ea, EP, AE.
  assert (J : (0 < / pi <= / 3)%R) by (split; [apply Rinv_0_lt_compat; lra|apply Rinv_le_contravar; lra]).
  assert (J2 : (0 < / PI <= / 3)%R) by (split; [apply Rinv_0_lt_compat; lra|apply Rinv_le_contravar; lra]).
  assert (ED : (Rabs (180 / pi - deg) <= powerRZ 2 (-46))%R) by (apply (dround_err 46); [lia| |exact Rdeg]; change (2 ^ (52 - 46)) with 64; rewrite Rabs_right; unfold Rdiv; lra).
  rewrite V46 in ED; apply Rabs_le_inv in ED.
  assert (E2 : (- (20 * u) <= 180 / pi - 180 / PI <= 20 * u)%R).
  { replace (180 / pi - 180 / PI)%R with (180 * ((PI - pi) * (/ pi * / PI)))%R by (field; lra).
    assert (K : (0 < / pi * / PI <= / 9)%R) by (split; nra); set (k := (/ pi * / PI)%R) in *; clearbody k; split; nra. }
  set (D0 := (180 / PI)%R) in *; assert (D0B : (0 < D0 <= 60)%R) by (unfold D0, Rdiv; lra).
  assert (EA : (- (131073 * u) <= a - A <= 131073 * u)%R) by lra; assert (A4 : (0 <= a <= 4 + 131073 * u)%R) by lra.
  assert (E3 : (- (131073 * 60 * u + 4 * 36 * u) <= a * deg - A * D0 <= 131073 * 60 * u + 4 * 36 * u)%R).
  { replace (a * deg - A * D0)%R with ((a - A) * deg + A * (deg - D0))%R by ring.
    assert (B1 : (- (131073 * u * 60) <= (a - A) * deg <= 131073 * u * 60)%R) by (apply product_bound; lra).
    assert (B2 : (- (4 * (36 * u)) <= A * (deg - D0) <= 4 * (36 * u))%R) by (rewrite (Rmult_comm 4), (Rmult_comm A); apply product_bound; lra); lra. }
  assert (A5 : (a <= 4 + / 1024)%R) by lra.
  assert (PB : (0 <= a * deg <= 241)%R) by (split; [apply Rmult_le_pos; lra|apply Rle_trans with ((4 + / 1024) * 60)%R; [apply Rmult_le_compat; lra|lra]]).
  assert (HB : (0 <= h1 <= 241)%R) by (split; [apply (dround_ge (a * deg) h1 0); auto; [apply (double_int 0); lia|lra]|apply (dround_le (a * deg) h1 241); auto; [apply (double_int 241); lia|lra]]).
  assert (EH : (Rabs (a * deg - h1) <= powerRZ 2 (-44))%R) by (apply (dround_err 44); [lia| |exact Rh]; change (2 ^ (52 - 44)) with 256; rewrite Rabs_right; lra).
  rewrite V44 in EH; apply Rabs_le_inv in EH.
  assert (back : (A * D0 * (PI / 180) = A)%R) by (unfold D0; field; lra).
  assert (AD : (0 <= A * D0 <= 180)%R).
  { split; [apply Rmult_le_pos; lra|]; replace 180%R with (PI * D0)%R by (unfold D0; field; lra); apply Rmult_le_compat_r; lra. }
  destruct (b <=? g) eqn:BG.
  - exists (A * D0)%R; subst h; split; [lra|]; split; [rewrite V26; apply Rabs_le; lra|]; cbv zeta; rewrite back; split; [rewrite CW; unfold x; field|].
    rewrite SW, Z.abs_eq by lia; reflexivity.
  - assert (EF : (Rabs (360 - h1 - h) <= powerRZ 2 (-43))%R) by (apply (dround_err 43); [lia| |exact H]; change (2 ^ (52 - 43)) with 512; rewrite Rabs_right; lra).
    rewrite V43 in EF; apply Rabs_le_inv in EF; specialize (AP ltac:(lia)).
    exists (360 - A * D0)%R; split; [assert (0 < A * D0)%R by (apply Rmult_lt_0_compat; lra); lra|]; split; [rewrite V26; apply Rabs_le; lra|]; cbv zeta.
    replace ((360 - A * D0) * (PI / 180))%R with (- A + 2 * INR 1 * PI)%R by (rewrite Rmult_minus_distr_r, back; cbn; field).
    rewrite cos_period, sin_period, cos_neg, sin_neg; split; [rewrite CW; unfold x; field|].
    rewrite <- Ropp_mult_distr_l, SW, Z.abs_neq, opp_IZR by lia; ring.
Qed.
Print Assumptions C185_direction.

(** ** there and back *)
Lemma hexcone_span h s v : (0 <= h < 360)%R -> (0 <= s <= 1)%R -> (0 <= v)%R ->
  (forall n, n = 5 \/ n = 3 \/ n = 1 -> v * (1 - s) <= hexcone n h s v <= v)%R /\
  (hexcone 5 h s v = v * (1 - s) \/ hexcone 3 h s v = v * (1 - s) \/ hexcone 1 h s v = v * (1 - s))%R.
Proof.
  intros H S V; set (z := (h / 60)%R); assert (Z0 : (0 <= z < 6)%R) by (unfold z; lra); pose proof (Int_part_bounds z) as B; set (k := Int_part z) in *.
  assert (K : 0 <= k < 6) by (split; [assert (-1 < k) by (apply lt_IZR; lra); lia|apply lt_IZR; lra]).
  pose proof (hexcone_sector k z s v K ltac:(lra)) as HS; cbv zeta in HS; replace (60 * z)%R with h in HS by (unfold z; field).
  set (f := (z - IZR k)%R) in *; assert (F : (0 <= f <= 1)%R) by (unfold f; lra).
  assert (B1 : (0 <= f * s <= s)%R) by nra; assert (B2 : (0 <= (1 - f) * s <= s)%R) by nra.
  assert (Q1 : (v * (1 - s) <= v * (1 - f * s) <= v)%R) by (split; nra); assert (Q2 : (v * (1 - s) <= v * (1 - (1 - f) * s) <= v)%R) by (split; nra).
  assert (Q3 : (v * (1 - s) <= v)%R) by nra; clearbody f.
  assert (C : k = 0 \/ k = 1 \/ k = 2 \/ k = 3 \/ k = 4 \/ k = 5) by lia; clearbody k.
  destruct C as [->|[->|[->|[->|[->| ->]]]]]; cbn [sector] in HS; injection HS as E5 E3 E1; (split; [intros n [->|[->| ->]]; lra|auto]).
Qed.
Theorem C185_round_trip r g b hsv out : channel r -> channel g -> channel b -> rgb2hsv_rounded r g b hsv -> hsv2rgb_rounded hsv out ->
  exists r' g' b', out = Ok [r'; g'; b'] /\ channel r' /\ channel g' /\ channel b' /\
    Z.max r' (Z.max g' b') = Z.max r (Z.max g b) /\
    Z.min r (Z.min g b) - 1 <= Z.min r' (Z.min g' b') <= Z.min r (Z.min g b).
Proof.
  intros Cr Cg Cb H O; destruct hsv as [[h s] v]; destruct (C185_hue _ _ _ _ _ _ Cr Cg Cb H) as [Dh HB]; destruct (C185_saturation _ _ _ _ _ _ Cr Cg Cb H) as (V & S & E).
  set (M := Z.max r (Z.max g b)) in *; set (m := Z.min r (Z.min g b)) in *; unfold channel in *.
  assert (BM : 0 <= M <= 255) by (unfold M; lia); assert (Bv : (0 <= v <= 255)%R) by (rewrite V; split; apply IZR_le; lia).
  destruct (C185_hsv2rgb h s v out Dh HB S Bv O) as (r' & g' & b' & Q & (R1 & R2) & (G1 & G2) & (B1 & B2) & X); specialize (X M V).
  exists r', g', b'; split; [exact Q|]; do 3 (split; [lia|]).
  destruct (hexcone_span h s v HB S ltac:(lra)) as [SP MN].
  pose proof (SP 5%R ltac:(auto)) as S5; pose proof (SP 3%R ltac:(auto)) as S3; pose proof (SP 1%R ltac:(auto)) as S1.
  assert (T : (255 * powerRZ 2 (-49) <= powerRZ 2 (-40))%R).
  { replace (powerRZ 2 (-40)) with (512 * powerRZ 2 (-49))%R; [pose proof (pw_pos (-49)); lra|]; change 512%R with (IZR (2 ^ 9)); rewrite IZR_pow2, <- pw_add by lia; reflexivity. }
  pose proof delta_small as D; apply Rabs_le_inv in E; rewrite <- V in E.
  assert (up : forall c e, (IZR c - powerRZ 2 (-40) <= e < IZR c + 1 + powerRZ 2 (-40))%R -> (e <= v)%R -> c <= M).
  { intros c e C L; assert (c < M + 1); [|lia]; apply lt_IZR; rewrite plus_IZR, <- V; lra. }
  assert (low : forall c e, (IZR c - powerRZ 2 (-40) <= e < IZR c + 1 + powerRZ 2 (-40))%R -> (v * (1 - s) <= e)%R -> m - 1 <= c).
  { intros c e C L; assert (m - 2 < c); [|lia]; apply lt_IZR; rewrite minus_IZR; lra. }
  assert (at_ : forall c e, (IZR c - powerRZ 2 (-40) <= e < IZR c + 1 + powerRZ 2 (-40))%R -> (e = v * (1 - s))%R -> c <= m).
  { intros c e C L; assert (c < m + 1); [|lia]; apply lt_IZR; rewrite plus_IZR; lra. }
  pose proof (up _ _ R2 (proj2 S5)); pose proof (up _ _ G2 (proj2 S3)); pose proof (up _ _ B2 (proj2 S1)).
  pose proof (low _ _ R2 (proj1 S5)); pose proof (low _ _ G2 (proj1 S3)); pose proof (low _ _ B2 (proj1 S1)).
  assert (r' <= m \/ g' <= m \/ b' <= m) by (destruct MN as [N|[N|N]]; [left; eapply at_|right; left; eapply at_|right; right; eapply at_]; eauto).
  lia.
Qed.
Print Assumptions C185_round_trip.

(** a colour whose green and blue are equal and smaller than its red has the hue 0 *)
Lemma red_hue M m h s v : 0 <= m < M -> M <= 255 -> rgb2hsv_rounded M m m (h, s, v) -> h = 0%R.
Proof.
  intros B1 B2 (H & _); replace (Z.max M (Z.max m m)) with M in H by lia; replace (Z.min M (Z.min m m)) with m in H by lia.
  destruct (M =? m) eqn:E; [lia|]; destruct H as (h1 & (d & c & a & pi & deg & Rd & Rc & (_ & _ & _ & A & _) & _ & _ & Rh) & H).
  destruct (m <=? m) eqn:E2; [|lia]; subst h.
  replace ((M - m) * (M - m) + (M - m) * (m - m)) with ((M - m) * (M - m)) in Rd by ring; rewrite mult_IZR, sqrt_square in Rd by (apply IZR_le; lia).
  apply dround_exact in Rd; [|apply double_int; lia]; subst d.
  assert (N : (IZR (M - m) <> 0)%R) by (apply not_0_IZR; lia).
  replace (/ 2 * IZR (M - m + (M - m)) / IZR (M - m))%R with 1%R in Rc by (rewrite plus_IZR; field; exact N).
  apply dround_exact in Rc; [|apply (double_int 1); lia]; rewrite (A Rc), Rmult_0_l in Rh.
  apply dround_exact in Rh; [exact Rh|apply (double_int 0); lia].
Qed.
Lemma red_out M s out : hsv2rgb_rounded (0%R, s, IZR M) out -> 0 <= M <= 255 -> forall r g b, out = Ok [r; g; b] -> r = M.
Proof.
  intros (z & Rz & O) B r g b ->; replace (0 / 60)%R with 0%R in Rz by field; apply xround_exact in Rz; [|apply (ext_int 0); lia]; subst z.
  rewrite (Int_part_IZR 0), to_u8_IZR in O by lia; destruct O as (f & m0 & vmin & q0 & q1 & q & t0 & t1 & t2 & t & _ & _ & _ & _ & _ & _ & _ & _ & _ & _ & O).
  cbn [Z.eqb] in O; rewrite to_u8_IZR in O by lia; cbn [bind] in O; destruct (to_u8 t), (to_u8 vmin); cbn [bind] in O; congruence.
Qed.
(** such a colour comes back with its red, and with its green and blue or one less *)
Theorem C185_reds M m hsv out : 0 <= m < M -> M <= 255 -> rgb2hsv_rounded M m m hsv -> hsv2rgb_rounded hsv out ->
  exists g b, out = Ok [M; g; b] /\ Z.max 0 (m - 1) <= g <= m /\ Z.max 0 (m - 1) <= b <= m.
Proof.
  intros B1 B2 H O; destruct hsv as [[h s] v]; pose proof (red_hue M m h s v B1 B2 H); subst h.
  destruct (C185_saturation M m m 0 s v) as (V & S & E); unfold channel; try lia; auto.
  replace (Z.max M (Z.max m m)) with M in V, E by lia; replace (Z.min M (Z.min m m)) with m in E by lia; subst v.
  assert (BM : (0 <= IZR M <= 255)%R) by (split; apply IZR_le; lia).
  destruct (C185_hsv2rgb 0 s (IZR M) out) as (r & g & b & Q & Cr & Cg & Cb & _); auto; [apply (double_int 0); lia|lra|].
  pose proof (red_out M s out O ltac:(lia) r g b Q) as ->; exists g, b; split; [exact Q|].
  pose proof (hexcone_sector 0 0 s (IZR M) ltac:(lia) ltac:(lra)) as HS; cbn [sector] in HS; cbv zeta in HS; rewrite Rmult_0_r in HS; injection HS as _ H3 H1.
  rewrite <- H3 in Cg; rewrite <- H1 in Cb.
  replace (IZR M * (1 - (1 - (0 - 0)) * s))%R with (IZR M * (1 - s))%R in Cg by ring.
  assert (T : (255 * powerRZ 2 (-49) <= powerRZ 2 (-40))%R).
  { replace (powerRZ 2 (-40)) with (512 * powerRZ 2 (-49))%R; [pose proof (pw_pos (-49)); lra|]; change 512%R with (IZR (2 ^ 9)); rewrite IZR_pow2, <- pw_add by lia; reflexivity. }
  pose proof delta_small as D; apply Rabs_le_inv in E.
  assert (fin : forall c, close c (IZR M * (1 - s)) -> Z.max 0 (m - 1) <= c <= m).
  { intros c (C1 & C2); assert (c < m + 1) by (apply lt_IZR; rewrite plus_IZR; lra); assert (m - 2 < c) by (apply lt_IZR; rewrite minus_IZR; lra); lia. }
  auto.
Qed.
Print Assumptions C185_reds.
(** greys come back exactly *)
Theorem C185_greys c hsv out : channel c -> rgb2hsv_rounded c c c hsv -> hsv2rgb_rounded hsv out -> out = Ok [c; c; c].
Proof.
  unfold channel; intros C H O; destruct hsv as [[h s] v]; destruct H as (Hh & Hs & Hv); replace (Z.max c (Z.max c c)) with c in * by lia; replace (Z.min c (Z.min c c)) with c in * by lia.
  rewrite Z.eqb_refl in Hh; subst h v; assert (s = 0%R).
  { destruct (c =? 0) eqn:E; [exact Hs|]; destruct Hs as (q & Rq & Rs); replace (IZR c / IZR c)%R with 1%R in Rq by (field; apply not_0_IZR; lia).
    apply dround_exact in Rq; [|apply (double_int 1); lia]; subst q; replace (1 - 1)%R with 0%R in Rs by ring; apply dround_exact in Rs; [exact Rs|apply (double_int 0); lia]. }
  subst s; destruct O as (z & Rz & O); replace (0 / 60)%R with 0%R in Rz by field; apply xround_exact in Rz; [|apply (ext_int 0); lia]; subst z.
  rewrite (Int_part_IZR 0), to_u8_IZR in O by lia; destruct O as (f & m0 & vmin & q0 & q1 & q & t0 & t1 & t2 & t & Rf & Rm0 & Rm & _ & _ & _ & Rt0 & Rt1 & Rt2 & Rt & O).
  rewrite Rminus_0_r in Rm0; apply xround_exact in Rm0; [|apply (ext_int 1); lia]; subst m0; rewrite Rmult_1_r in Rm; apply xround_exact in Rm; [|apply ext_int; lia]; subst vmin.
  rewrite Rmult_0_r in Rt1; apply xround_exact in Rt1; [|apply (ext_int 0); lia]; subst t1; rewrite Rminus_0_r in Rt2; apply xround_exact in Rt2; [|apply (ext_int 1); lia]; subst t2.
  rewrite Rmult_1_r in Rt; apply xround_exact in Rt; [|apply ext_int; lia]; subst t; cbn [Z.eqb] in O; rewrite !to_u8_IZR in O by lia; exact O.
Qed.
Print Assumptions C185_greys.
(** what comes back when nothing is rounded on the way back *)
Lemma red_exact M s out : 0 <= M <= 255 -> extended s -> extended (1 - s) -> extended (IZR M * (1 - s)) -> (0 <= IZR M * (1 - s) < 256)%R ->
  hsv2rgb_rounded (0%R, s, IZR M) out -> out = Ok [M; Int_part (IZR M * (1 - s)); Int_part (IZR M * (1 - s))].
Proof.
  intros B X1 X2 X3 B2 (z & Rz & O); replace (0 / 60)%R with 0%R in Rz by field; apply xround_exact in Rz; [|apply (ext_int 0); lia]; subst z.
  rewrite (Int_part_IZR 0), to_u8_IZR in O by lia; destruct O as (f & m0 & vmin & q0 & q1 & q & t0 & t1 & t2 & t & Rf & Rm0 & Rm & _ & _ & _ & Rt0 & Rt1 & Rt2 & Rt & O).
  replace (0 - 0)%R with 0%R in Rf by ring; apply xround_exact in Rf; [|apply (ext_int 0); lia]; subst f.
  apply xround_exact in Rm0; [|exact X2]; subst m0; apply xround_exact in Rm; [|exact X3]; subst vmin.
  rewrite Rminus_0_r in Rt0; apply xround_exact in Rt0; [|apply (ext_int 1); lia]; subst t0; rewrite Rmult_1_l in Rt1; apply xround_exact in Rt1; [|exact X1]; subst t1.
  apply xround_exact in Rt2; [|exact X2]; subst t2; apply xround_exact in Rt; [|exact X3]; subst t.
  cbn [Z.eqb] in O; rewrite to_u8_IZR in O by lia; cbn [bind] in O; rewrite (to_u8_floor _ B2) in O; exact O.
Qed.
(** if the largest channel is a power of two they come back exactly *)
Theorem C185_powers k m hsv out : 0 <= k <= 7 -> 0 <= m < 2 ^ k -> rgb2hsv_rounded (2 ^ k) m m hsv -> hsv2rgb_rounded hsv out -> out = Ok [2 ^ k; m; m].
Proof.
  intros K B H O; destruct hsv as [[h s] v]; assert (M : 0 < 2 ^ k <= 128) by (split; [apply Z.pow_pos_nonneg; lia|change 128 with (2 ^ 7); apply Z.pow_le_mono_r; lia]).
  set (M2 := 2 ^ k) in *; pose proof (red_hue M2 m h s v ltac:(lia) ltac:(lia) H); subst h; destruct H as (_ & Hs & Hv).
  replace (Z.max M2 (Z.max m m)) with M2 in * by lia; replace (Z.min M2 (Z.min m m)) with m in * by lia; subst v.
  destruct (M2 =? 0) eqn:E0; [lia|]; destruct Hs as (q & Rq & Rs).
  pose proof (pw2 k ltac:(lia)) as P; fold M2 in P; assert (N : (IZR M2 <> 0)%R) by (apply not_0_IZR; lia).
  assert (Q : (IZR m / IZR M2 = IZR m * powerRZ 2 (- k))%R) by (replace (powerRZ 2 (- k)) with (/ IZR M2)%R; [reflexivity|]; apply Rmult_eq_reg_r with (IZR M2); [|exact N]; rewrite Rinv_l by exact N; auto).
  rewrite Q in Rq; apply dround_exact in Rq; [|apply double_scaled; lia]; subst q.
  assert (S : (1 - IZR m * powerRZ 2 (- k) = IZR (M2 - m) * powerRZ 2 (- k))%R) by (rewrite minus_IZR; nra).
  rewrite S in Rs; apply dround_exact in Rs; [|apply double_scaled; lia]; subst s.
  assert (T : (1 - IZR (M2 - m) * powerRZ 2 (- k) = IZR m * powerRZ 2 (- k))%R) by (rewrite minus_IZR; nra).
  assert (T2 : (IZR M2 * (1 - IZR (M2 - m) * powerRZ 2 (- k)) = IZR m)%R) by (rewrite T; rewrite <- Rmult_assoc, (Rmult_comm (IZR M2)), Rmult_assoc, (Rmult_comm (IZR M2)), P; ring).
  apply red_exact in O; [|lia|apply ext_scaled; lia|rewrite T; apply ext_scaled; lia|rewrite T2; apply ext_int; lia|rewrite T2; split; [apply IZR_le; lia|apply (IZR_lt m 256); lia]].
  rewrite T2, Int_part_IZR in O; exact O.
Qed.
Print Assumptions C185_powers.
(** but (3, 2, 2) always comes back as (3, 1, 1) *)
Lemma two_thirds q : dround (2 / 3) q -> q = (IZR 6004799503160661 * powerRZ 2 (-53))%R.
Proof.
  intros (b & R & M); assert (X : (2 / 3 = IZR (2 * 2 ^ 1074) / IZR 3 * unit_)%R).
  { rewrite mult_IZR, IZR_pow2 by lia; unfold unit_; transitivity (IZR 2 / IZR 3 * (powerRZ 2 1074 * powerRZ 2 (-1074)))%R; [rewrite <- pw_add; change (1074 + -1074) with 0; rewrite powerRZ_O; ring|field]. }
  rewrite X in R; assert (N : nearest_is (2 * 2 ^ 1074) 3 4604180019048437077 = true) by (vm_compute; reflexivity).
  apply nearest_rounds in N; pose proof (rounds_unique _ _ _ R N) as U.
  assert (F : finite_double (pat 4604180019048437077) = true) by (vm_compute; reflexivity); apply finite_double_means in F.
  pose proof (means_pattern _ _ M) as PM; pose proof (means_pattern _ _ F) as PF; apply means_meaning in M; [|exact PM]; apply means_meaning in F; [|exact PF].
  rewrite U, <- F in M; injection M as ->.
  replace (key_units (pat 4604180019048437077)) with (6004799503160661 * 2 ^ 1021) by (vm_compute; reflexivity).
  rewrite mult_IZR, IZR_pow2, Rmult_assoc by lia; unfold unit_; rewrite <- pw_add; reflexivity.
Qed.
Theorem C185_red_refuted : exists r g b, channel r /\ channel g /\ channel b /\
  (exists hsv out, rgb2hsv_rounded r g b hsv /\ hsv2rgb_rounded hsv out) /\
  forall hsv out, rgb2hsv_rounded r g b hsv -> hsv2rgb_rounded hsv out -> out = Ok [r; g - 1; b - 1].
Proof.
  exists 3, 2, 2; unfold channel; do 3 (split; [lia|]).
  pose proof (pw2 53 ltac:(lia)) as P; change (- (53)) with (-53) in P; set (u := powerRZ 2 (-53)) in *.
  assert (S : (1 - IZR 6004799503160661 * u = IZR 3002399751580331 * u)%R) by (change 3002399751580331 with (2 ^ 53 - 6004799503160661); rewrite minus_IZR; lra).
  assert (T : (1 - IZR 3002399751580331 * u = IZR 6004799503160661 * u)%R) by lra.
  assert (D : double (IZR 3002399751580331 * u)) by (apply double_scaled; lia).
  assert (T2 : (IZR 3 * (1 - IZR 3002399751580331 * u) = IZR 18014398509481983 * u)%R) by (rewrite T; change 18014398509481983 with (3 * 6004799503160661); rewrite mult_IZR; ring).
  split.
  - destruct (dround_total (2 / 3) ltac:(rewrite Rabs_right; lra)) as [q Rq].
    assert (Rs : dround (1 - q) (IZR 3002399751580331 * u)) by (rewrite (two_thirds q Rq); fold u; rewrite S; apply dround_self, D).
    assert (one : double 1) by (apply (double_int 1); lia); assert (zero : double 0) by (apply (double_int 0); lia).
    destruct (dround_total PI) as [pi Rp]; [pose proof PI_RGT_0; pose proof PI_4; rewrite Rabs_right; lra|].
    assert (Bp : (1 <= pi)%R) by (apply (dround_ge PI pi 1); auto; pose proof PI2_1; lra).
    assert (Bi : (0 < / pi <= 1)%R) by (split; [apply Rinv_0_lt_compat; lra|rewrite <- Rinv_1; apply Rinv_le_contravar; lra]).
    destruct (dround_total (180 / pi)) as [deg Rdeg]; [rewrite Rabs_right; unfold Rdiv; nra|].
    destruct (C185_hsv2rgb_total 0 (IZR 3002399751580331 * u) 3) as [out O]; [lra| |lra|].
    { assert (0 < u)%R by apply pw_pos; split; [|rewrite <- S]; nra. }
    exists (0%R, (IZR 3002399751580331 * u)%R, IZR 3), out; split; [|exact O].
    split; [|split; [exists q; split; [exact Rq|exact Rs]|reflexivity]].
    cbn [Z.max Z.min Z.eqb Z.compare Pos.compare Pos.compare_cont Pos.eqb]; exists 0%R; split; [|reflexivity].
    exists 1%R, 1%R, 0%R, pi, deg; split; [replace ((3 - 2) * (3 - 2) + (3 - 2) * (2 - 2)) with 1 by reflexivity; rewrite sqrt_1; apply dround_self, one|].
    split; [|split; [split; [lra|split; [exact zero|split; [lra|split; [auto|rewrite acos_1, abs_self; left; apply pw_pos]]]]|split; [exact Rp|split; [exact Rdeg|rewrite Rmult_0_l; apply dround_self, zero]]]].
    replace (/ 2 * IZR (3 - 2 + (3 - 2)) / 1)%R with 1%R by (change (3 - 2 + (3 - 2)) with 2; field); apply dround_self, one.
  - intros [[h s] v] out H O; pose proof (red_hue 3 2 h s v ltac:(lia) ltac:(lia) H); subst h; destruct H as (_ & Hs & Hv).
    change (Z.max 3 (Z.max 2 2)) with 3 in *; change (Z.min 3 (Z.min 2 2)) with 2 in *; cbn [Z.eqb] in Hs; subst v; destruct Hs as (q & Rq & Rs).
    rewrite (two_thirds q Rq) in Rs; fold u in Rs; rewrite S in Rs; apply dround_exact in Rs; [|exact D]; subst s.
    assert (U : (0 < u)%R) by apply pw_pos.
    assert (I : (1 <= IZR 18014398509481983 * u < 2)%R) by (change (IZR (2 ^ 53)) with 9007199254740992%R in P; lra).
    apply red_exact in O; [|lia|apply ext_scaled; lia|rewrite T; apply ext_scaled; lia|rewrite T2; apply ext_scaled; lia|rewrite T2; lra].
    rewrite T2, (Int_part_unique _ 1) in O by lra; exact O.
Qed.
Print Assumptions C185_red_refuted.
(** a colour with three different channels, and a red whose largest channel is a power of two, go there and back *)
Example C185_case :
  (exists hsv out r g b, rgb2hsv_rounded 200 100 50 hsv /\ hsv2rgb_rounded hsv out /\ out = Ok [r; g; b] /\
     Z.max r (Z.max g b) = 200 /\ 49 <= Z.min r (Z.min g b) <= 50) /\
  (exists hsv, rgb2hsv_rounded 128 3 3 hsv /\ hsv2rgb_rounded hsv (Ok [128; 3; 3])).
Proof.
  assert (trip : forall r g b, channel r -> channel g -> channel b -> exists hsv out, rgb2hsv_rounded r g b hsv /\ hsv2rgb_rounded hsv out).
  { intros r g b Cr Cg Cb; destruct (C185_total r g b Cr Cg Cb) as [[[h s] v] H]; destruct (C185_hue _ _ _ _ _ _ Cr Cg Cb H) as [_ HB].
    destruct (C185_saturation _ _ _ _ _ _ Cr Cg Cb H) as (V & S & _); unfold channel in *.
    destruct (C185_hsv2rgb_total h s v HB S) as [out O]; [rewrite V; split; apply IZR_le; lia|]; eauto. }
  split.
  - destruct (trip 200 100 50) as (hsv & out & H & O); try (unfold channel; lia).
    destruct (C185_round_trip 200 100 50 hsv out) as (r & g & b & Q & _ & _ & _ & M & m); try (unfold channel; lia); auto.
    exists hsv, out, r, g, b; auto.
  - destruct (trip 128 3 3) as (hsv & out & H & O); try (unfold channel; lia).
    pose proof (C185_powers 7 3 hsv out ltac:(lia) ltac:(lia) H O) as ->; eauto.
Qed.
