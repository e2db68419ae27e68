(** ColourProofs.v - facts on ColourModel.v *)
From Coq Require Import Reals Lra Psatz.
From Verif Require Import Base ImageModel ImageFacts ImageProofs PixelModel PixelProofs OField SiftModel SiftProofs ColourModel.
Open Scope nat_scope.

Lemma Int_part_bounds r : (IZR (Int_part r) <= r < IZR (Int_part r) + 1)%R.
Proof. pose proof (base_Int_part r); lra. Qed.

Lemma Int_part_unique r z : (IZR z <= r < IZR z + 1)%R -> Int_part r = z.
Proof.
  intros H; pose proof (Int_part_bounds r) as B.
  assert (IZR (Int_part r) < IZR (z + 1))%R by (rewrite plus_IZR; lra).
  assert (IZR z < IZR (Int_part r + 1))%R by (rewrite plus_IZR; lra).
  apply lt_IZR in H0; apply lt_IZR in H1; lia.
Qed.

Lemma Int_part_IZR z : Int_part (IZR z) = z.
Proof. apply Int_part_unique; lra. Qed.

Lemma Int_part_le x y : (x <= y)%R -> (Int_part x <= Int_part y)%Z.
Proof.
  intros H; pose proof (Int_part_bounds x); pose proof (Int_part_bounds y).
  assert (IZR (Int_part x) < IZR (Int_part y + 1))%R by (rewrite plus_IZR; lra).
  apply lt_IZR in H2; lia.
Qed.

Lemma rleb_false x y : rleb x y = false <-> (y < x)%R.
Proof. unfold rleb; rewrite Bool.negb_false_iff, rltb_spec; lra. Qed.

Lemma to_u8_floor r : (0 <= r < 256)%R -> to_u8 r = Ok (Int_part r).
Proof.
  intros H; unfold to_u8; rewrite (proj2 (rleb_false r (-1))), (proj2 (rleb_false 256 r)) by lra; cbn.
  assert (0 <= Int_part r)%Z; [|f_equal; lia].
  replace 0%Z with (Int_part (IZR 0)) by apply Int_part_IZR; apply Int_part_le; lra.
Qed.

Lemma to_u8_IZR z : (0 <= z < 256)%Z -> to_u8 (IZR z) = Ok z.
Proof.
  intros H; rewrite to_u8_floor, Int_part_IZR; auto.
  split; [apply IZR_le; lia | apply (IZR_lt z 256); lia].
Qed.

(** ** the sectors of hsv2rgb *)
Definition sector (k : Z) (v q t m : R) : R * R * R :=
  match k with
  | 0 => (v, t, m) | 1 => (q, v, m) | 2 => (m, v, t) | 3 => (m, q, v) | 4 => (t, m, v) | _ => (v, m, q)
  end%Z.

Lemma hsv2rgb_sector k H S V : (0 <= k < 6)%Z -> (60 * IZR k <= H < 60 * (IZR k + 1))%R -> (0 <= S <= 1)%R -> (0 <= V < 256)%R ->
  let f := (H / 60 - IZR k)%R in
  hsv2rgb [H; S; V] =
    let '(a, b, c) := sector k V (V * (1 - f * S)) (V * (1 - (1 - f) * S)) (V * (1 - S)) in
    Ok [Int_part a; Int_part b; Int_part c].
Proof.
  intros Hk HH HS HV f; unfold hsv2rgb; cbn [vget nth_error bind].
  assert (EI : Int_part (H / 60) = k) by (apply Int_part_unique; lra).
  rewrite EI, to_u8_IZR by lia; cbn [bind]; fold f.
  assert (Hf : (0 <= f < 1)%R) by (unfold f; lra).
  assert (B : forall a, (0 <= a <= 1)%R -> (0 <= V * (1 - a * S) < 256)%R).
  { intros a Ha; assert (0 <= a * S <= 1)%R by nra; nra. }
  pose proof (B f ltac:(lra)) as Bq; pose proof (B (1 - f)%R ltac:(lra)) as Bt.
  assert (Bm : (0 <= V * (1 - S) < 256)%R) by (pose proof (B 1%R ltac:(lra)); lra).
  assert (C : (k = 0 \/ k = 1 \/ k = 2 \/ k = 3 \/ k = 4 \/ k = 5)%Z) by lia.
  destruct C as [->|[->|[->|[->|[->| ->]]]]]; cbn [sector Z.eqb Pos.eqb];
    rewrite (to_u8_floor V) by lra; rewrite ?(to_u8_floor _ Bq), ?(to_u8_floor _ Bt), ?(to_u8_floor _ Bm); reflexivity.
Qed.

(** ** the hue *)
Lemma unit_quotient a d D : (0 < d -> d * d = D -> a * a <= D -> -1 <= a / d <= 1)%R.
Proof.
  intros P E H; assert (Q : ((a / d) * d = a)%R) by (field; lra); set (x := (a / d)%R) in *; clearbody x; subst a D.
  assert (0 < d * d)%R by nra; split; apply Rnot_lt_le; intros L; assert (1 < x * x)%R by nra; nra.
Qed.

Section Hue.
  Open Scope R_scope.
  Variables r g b : R.
  Hypothesis Ne : ~ (r = g /\ g = b).
  Let D := ((r - g) * (r - g) + (r - b) * (g - b)).
  Let d := sqrt D.
  Let a := (/ 2 * ((r - g) + (r - b))).
  Let th := acos (a / d).

  Lemma hue_D : D = a * a + 3 / 4 * ((g - b) * (g - b)).
  Proof. unfold D, a; field. Qed.

  Lemma hue_D_pos : 0 < D.
  Proof.
    rewrite hue_D; destruct (Req_dec (g - b) 0) as [E|E]; [|assert (0 < (g - b) * (g - b)) by nra; nra].
    assert (a <> 0) by (unfold a; intros H; apply Ne; lra); nra.
  Qed.

  Lemma hue_d : 0 < d /\ d * d = D.
  Proof. pose proof hue_D_pos; split; [apply sqrt_lt_R0; auto | apply sqrt_sqrt; lra]. Qed.

  Lemma hue_x : -1 <= a / d <= 1.
  Proof.
    destruct hue_d as (P & E); pose proof hue_D as HD.
    apply (unit_quotient a d D); auto; rewrite HD; pose proof (Rle_0_sqr (g - b)) as S; unfold Rsqr in S; lra.
  Qed.

  Lemma hue_range : 0 <= th <= PI.
  Proof. apply acos_bound. Qed.

  Lemma hue_cos : d * cos th = a.
  Proof. destruct hue_d; unfold th; rewrite cos_acos by apply hue_x; field; lra. Qed.

  Lemma hue_sin : d * sin th = sqrt 3 / 2 * Rabs (g - b).
  Proof.
    destruct hue_d as (P & E); pose proof hue_cos as C; pose proof hue_D as HD.
    assert (S0 : 0 <= sin th) by (apply sin_ge_0; apply hue_range).
    assert (Q : (d * sin th) * (d * sin th) = 3 / 4 * ((g - b) * (g - b))).
    { pose proof (sin2_cos2 th) as SC; unfold Rsqr in SC.
      replace ((d * sin th) * (d * sin th)) with (d * d * (1 - cos th * cos th)) by (rewrite <- SC; ring).
      replace (d * d * (1 - cos th * cos th)) with (d * d - (d * cos th) * (d * cos th)) by ring.
      rewrite C, E, HD; ring. }
    assert (A : Rabs (g - b) * Rabs (g - b) = (g - b) * (g - b)) by (rewrite <- Rabs_mult, Rabs_right; [auto | nra]).
    pose proof (Rabs_pos (g - b)) as Pa; pose proof (sqrt_pos 3) as P3; pose proof (sqrt_sqrt 3 ltac:(lra)) as S3.
    apply Rsqr_inj; unfold Rsqr; [nra | nra |].
    rewrite Q; replace (sqrt 3 / 2 * Rabs (g - b) * (sqrt 3 / 2 * Rabs (g - b))) with (sqrt 3 * sqrt 3 / 4 * (Rabs (g - b) * Rabs (g - b))) by field.
    rewrite A, S3; field.
  Qed.

  (** the cosine against one half *)
  Lemma hue_quarter : 4 * (a * a) - D = 3 * ((r - g) * (r - b)).
  Proof. unfold D, a; field. Qed.

  Lemma hue_lt t : 0 <= t <= PI -> d * cos t < a -> th < t.
  Proof.
    intros Ht H; destruct hue_d as (P & _); pose proof hue_cos as C.
    apply cos_decreasing_0; try lra; try apply hue_range; nra.
  Qed.
  Lemma hue_gt t : 0 <= t <= PI -> a < d * cos t -> t < th.
  Proof.
    intros Ht H; destruct hue_d as (P & _); pose proof hue_cos as C.
    apply cos_decreasing_0; try lra; try apply hue_range; nra.
  Qed.
  Lemma hue_eq t : 0 <= t <= PI -> a = d * cos t -> th = t.
  Proof.
    intros Ht H; destruct hue_d as (P & _); unfold th; replace (a / d) with (cos t) by (rewrite H; field; lra).
    apply acos_cos; auto.
  Qed.

  Lemma cos_120 : cos (2 * (PI / 3)) = - / 2.
  Proof. rewrite cos_2PI3; field. Qed.

  Lemma hue_0_60 : g < r -> b < r -> th < PI / 3.
  Proof.
    intros H1 H2; pose proof PI_RGT_0; apply hue_lt; [lra|]; rewrite cos_PI3.
    destruct hue_d as (P & E); pose proof hue_quarter as Q; assert (0 < a) by (unfold a; lra).
    assert (0 < (r - g) * (r - b)) by nra; nra.
  Qed.
  Lemma hue_60 : (r = g /\ b < r) \/ (r = b /\ g < r) -> th = PI / 3.
  Proof.
    intros H; pose proof PI_RGT_0; apply hue_eq; [lra|]; rewrite cos_PI3.
    destruct hue_d as (P & E); pose proof hue_quarter as Q; assert (0 < a) by (unfold a; lra).
    assert ((r - g) * (r - b) = 0) by (destruct H as [(-> & _)|(-> & _)]; ring); nra.
  Qed.
  Lemma hue_60_120 : (r - g) * (r - b) < 0 -> PI / 3 < th < 2 * (PI / 3).
  Proof.
    intros H; pose proof PI_RGT_0; destruct hue_d as (P & E); pose proof hue_quarter as Q.
    split; [apply hue_gt; [lra|]; rewrite cos_PI3 | apply hue_lt; [lra|]; rewrite cos_120]; nra.
  Qed.
  Lemma hue_120 : (r = g /\ r < b) \/ (r = b /\ r < g) -> th = 2 * (PI / 3).
  Proof.
    intros H; pose proof PI_RGT_0; apply hue_eq; [lra|]; rewrite cos_120.
    destruct hue_d as (P & E); pose proof hue_quarter as Q; assert (a < 0) by (unfold a; lra).
    assert ((r - g) * (r - b) = 0) by (destruct H as [(-> & _)|(-> & _)]; ring); nra.
  Qed.
  Lemma hue_120_180 : r < g -> r < b -> 2 * (PI / 3) < th.
  Proof.
    intros H1 H2; pose proof PI_RGT_0; apply hue_gt; [lra|]; rewrite cos_120.
    destruct hue_d as (P & E); pose proof hue_quarter as Q; assert (a < 0) by (unfold a; lra).
    assert (0 < (r - g) * (r - b)) by nra; nra.
  Qed.
  Lemma hue_180 : g <> b -> 0 < th < PI.
  Proof.
    intros H; destruct hue_d as (P & _); pose proof hue_sin as S; pose proof hue_range as Rg.
    assert (0 < Rabs (g - b)) by (apply Rabs_pos_lt; lra).
    assert (0 < sqrt 3) by (apply sqrt_lt_R0; lra).
    assert (0 < sin th) by nra.
    split; apply Rnot_le_lt; intros L; [assert (th = 0) as Z by lra | assert (th = PI) as Z by lra];
      rewrite Z, ?sin_0, ?sin_PI in *; lra.
  Qed.
  Lemma hue_180_eq : g = b -> r < g -> th = PI.
  Proof.
    intros H L; pose proof PI_RGT_0; apply hue_eq; [lra|]; rewrite cos_PI.
    destruct hue_d as (P & E); pose proof hue_D as HD; assert (a < 0) by (unfold a; lra).
    rewrite H, Rminus_diag_eq in HD by auto; nra.
  Qed.
  Lemma hue_0_eq : g = b -> g < r -> th = 0.
  Proof.
    intros H L; pose proof PI_RGT_0; apply hue_eq; [lra|]; rewrite cos_0.
    destruct hue_d as (P & E); pose proof hue_D as HD; assert (0 < a) by (unfold a; lra).
    rewrite H, Rminus_diag_eq in HD by auto; nra.
  Qed.
End Hue.

(** ** rgb2hsv *)
Definition sat_of (r g b : Z) : R :=
  let vmax := Z.max r (Z.max g b) in let vmin := Z.min r (Z.min g b) in
  if (vmax =? 0)%Z then 0%R else (1 - IZR vmin / IZR vmax)%R.
Definition angle_of (r g b : R) : R :=
  acos (/ 2 * ((r - g) + (r - b)) / sqrt ((r - g) * (r - g) + (r - b) * (g - b))).

Lemma rgb2hsv_gray v : rgb2hsv [v; v; v] = Ok [0%R; sat_of v v v; IZR v].
Proof.
  unfold rgb2hsv; cbn [vget nth_error bind].
  replace (Z.max v (Z.max v v)) with v by lia; replace (Z.min v (Z.min v v)) with v by lia.
  rewrite Z.eqb_refl; cbn [bind]; unfold sat_of.
  replace (Z.max v (Z.max v v)) with v by lia; replace (Z.min v (Z.min v v)) with v by lia; reflexivity.
Qed.

Lemma rgb2hsv_value r g b : ~ (r = g /\ g = b) ->
  rgb2hsv [r; g; b] =
    Ok [(let t := (angle_of (IZR r) (IZR g) (IZR b) * (180 / PI))%R in if (b <=? g)%Z then t else (360 - t)%R);
        sat_of r g b; IZR (Z.max r (Z.max g b))].
Proof.
  intros Ne; unfold rgb2hsv; cbn [vget nth_error bind].
  replace (Z.max r (Z.max g b) =? Z.min r (Z.min g b))%Z with false by (symmetry; apply Z.eqb_neq; lia).
  rewrite !plus_IZR, mult_IZR, !minus_IZR.
  assert (Ne' : ~ (IZR r = IZR g /\ IZR g = IZR b)) by (intros (H1 & H2); apply eq_IZR in H1, H2; auto).
  pose proof (hue_d _ _ _ Ne') as (P & _); pose proof (hue_x _ _ _ Ne') as X.
  unfold acos_quotient.
  destruct (Req_EM_T _ 0) as [Z|Z]; [lra|].
  rewrite (proj2 (rltb_false _ (-1))), (proj2 (rltb_false 1 _)) by lra; cbn [orb bind].
  destruct (b <=? g)%Z; reflexivity.
Qed.

Lemma sat_of_spec r g b : (0 <= r)%Z -> (0 <= g)%Z -> (0 <= b)%Z ->
  (0 <= sat_of r g b <= 1)%R /\
  (IZR (Z.max r (Z.max g b)) * (1 - sat_of r g b) = IZR (Z.min r (Z.min g b)))%R.
Proof.
  intros Hr Hg Hb; unfold sat_of; cbv zeta.
  set (M := Z.max r (Z.max g b)); set (m := Z.min r (Z.min g b)).
  assert (0 <= m <= M)%Z by lia; destruct (Z.eqb_spec M 0) as [E|E].
  - split; [lra|]; rewrite E; replace m with 0%Z by lia; ring.
  - assert (0 < IZR M)%R by (apply IZR_lt; lia); assert (0 <= IZR m <= IZR M)%R by (split; apply IZR_le; lia).
    assert (0 <= IZR m / IZR M <= 1)%R.
    { split; [apply Rle_mult_inv_pos; lra | apply (Rmult_le_reg_r (IZR M)); auto; unfold Rdiv; rewrite Rmult_assoc, Rinv_l; lra]. }
    split; [lra | field; lra].
Qed.

Lemma degrees t k : (60 * k <= t * (180 / PI) <-> k * (PI / 3) <= t)%R.
Proof.
  pose proof PI_RGT_0 as P; split; intros H.
  - apply (Rmult_le_compat_r (PI / 180)) in H; [|lra].
    replace (t * (180 / PI) * (PI / 180))%R with t in H by (field; lra); lra.
  - apply (Rmult_le_compat_r (180 / PI)) in H; [|apply Rlt_le, Rdiv_lt_0_compat; lra].
    replace (k * (PI / 3) * (180 / PI))%R with (60 * k)%R in H by (field; lra); lra.
Qed.
Lemma degrees_lt t k : (t * (180 / PI) < 60 * k <-> t < k * (PI / 3))%R.
Proof. split; intros H; apply Rnot_le_lt; intros L; apply degrees in L; lra. Qed.
Lemma degrees_eq k : (k * (PI / 3) * (180 / PI) = 60 * k)%R.
Proof. pose proof PI_RGT_0; field; lra. Qed.

(** one sector with whole maximum and minimum *)
Definition sectorZ (k v q t m : Z) : list Z :=
  match k with
  | 0 => [v; t; m] | 1 => [q; v; m] | 2 => [m; v; t] | 3 => [m; q; v] | 4 => [t; m; v] | _ => [v; m; q]
  end%Z.

Lemma sector_out k H S V : (0 <= k < 6)%Z -> (60 * IZR k <= H < 60 * (IZR k + 1))%R -> (0 <= S <= 1)%R -> (0 <= V < 256)%R ->
  exists q t, (Int_part (V * (1 - S)) <= q <= Int_part V)%Z /\ (Int_part (V * (1 - S)) <= t <= Int_part V)%Z /\
    (H = 60 * IZR k -> q = Int_part V /\ t = Int_part (V * (1 - S)))%R /\
    hsv2rgb [H; S; V] = Ok (sectorZ k (Int_part V) q t (Int_part (V * (1 - S)))).
Proof.
  intros Hk HH HS BM.
  pose proof (hsv2rgb_sector k H S V Hk HH HS BM) as E; cbv zeta in E.
  set (f := (H / 60 - IZR k)%R) in *; assert (Hf : (0 <= f < 1)%R) by (unfold f; lra).
  assert (B : forall a, (0 <= a <= 1)%R -> (Int_part (V * (1 - S)) <= Int_part (V * (1 - a * S)) <= Int_part V)%Z).
  { intros a Ha; assert (0 <= a * S <= S)%R by nra; split; apply Int_part_le; nra. }
  exists (Int_part (V * (1 - f * S))), (Int_part (V * (1 - (1 - f) * S))).
  split; [apply B; lra|]; split; [apply B; lra|]; split.
  { intros Z; assert (f = 0%R) as -> by (unfold f; lra); rewrite Rmult_0_l, !Rminus_0_r, Rmult_1_l, Rmult_1_r; auto. }
  rewrite E; assert (C : (k = 0 \/ k = 1 \/ k = 2 \/ k = 3 \/ k = 4 \/ k = 5)%Z) by lia.
  destruct C as [->|[->|[->|[->|[->| ->]]]]]; cbn [sector sectorZ]; auto.
Qed.

(** ** images *)
Lemma mapM_nth {A B} (f : A -> res B) (g : nat -> B) l : (forall k a, nth_error l k = Some a -> f a = Ok (g k)) ->
  mapM f l = Ok (map g (seq 0 (length l))).
Proof.
  revert g; induction l as [|a l IH]; intros g H; simpl; auto.
  rewrite (H 0 a) by reflexivity; cbn [bind]; rewrite (IH (fun k => g (S k))) by (intros k b Hb; apply (H (S k)); auto).
  cbn [bind]; rewrite <- seq_shift, map_map; auto.
Qed.

Lemma pixelwiseM_ReprN {A B} (f : A -> res B) im ds F G : ReprN im ds F -> 0 < prodn ds ->
  (forall i, in_range ds i -> f (F i) = Ok (G i)) -> exists o, pixelwiseM f im = Ok o /\ ReprN o ds G.
Proof.
  intros (D & L & H) Hp HF; unfold pixelwiseM; rewrite (mapM_nth f (fun k => G (unoff ds k))).
  - cbn [bind]; rewrite L, D; destruct (image_data_map (fun k => G (unoff ds k)) ds Hp) as (o & E & Ro).
    exists o; split; auto; eapply ReprN_ext; [exact Ro|]; intros i Hi; cbv beta; rewrite off_unoff; auto.
  - intros k a Ha; assert (Hk : k < prodn ds) by (rewrite <- L; apply nth_error_Some; congruence).
    destruct (unoff_spec ds k Hk) as (IR & Ek); specialize (H _ IR); rewrite Ek in H.
    rewrite Ha in H; injection H as ->; auto.
Qed.

Lemma mapM_UB {A B} (f : A -> res B) l : (forall a, In a l -> (exists b, f a = Ok b) \/ f a = UB) ->
  (exists a, In a l /\ f a = UB) -> mapM f l = UB.
Proof.
  induction l as [|a l IH]; intros H (x & Hx & E); [destruct Hx|]; simpl.
  destruct (H a (or_introl eq_refl)) as [(b & Eb)|Eb]; rewrite Eb; cbn [bind]; auto.
  rewrite IH; auto; [intros c Hc; apply H; right; auto|].
  destruct Hx as [<-|Hx]; [congruence | exists x; auto].
Qed.
