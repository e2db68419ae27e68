(** PropReduce.v - extrema, counting, sums and distances (C49-C51, C79). *)
From Coq Require Import QArith Reals Lra Lia ZifyBool ZifyNat.
From Verif Require Import Base ImageModel ImageFacts PixelModel PixelProofs HistModel HistProofs InterpModel InterpProofs ReduceModel ReduceProofs.
Open Scope nat_scope.

(** a strict weak order, as std::totally_ordered types have *)
Definition weak_order {A} (lt : A -> A -> bool) : Prop :=
  (forall a, lt a a = false) /\ (forall a b c, lt a b = true -> lt b c = true -> lt a c = true) /\
  (forall a b c, lt a b = false -> lt b c = false -> lt a c = false).

(** ** C49 *)
Theorem C49_min {A} (lt : A -> A -> bool) im : weak_order lt -> pix im <> [] ->
  exists m, im_min lt im = Ok m /\ In m (pix im) /\ forall x, In x (pix im) -> lt x m = false.
Proof. intros (I & T & N) H; apply vmin_ok; auto. Qed.
Print Assumptions C49_min.

Theorem C49_max {A} (lt : A -> A -> bool) im : weak_order lt -> pix im <> [] ->
  exists m, im_max lt im = Ok m /\ In m (pix im) /\ forall x, In x (pix im) -> lt m x = false.
Proof. intros (I & T & N) H; apply vmax_ok; auto. Qed.
Print Assumptions C49_max.

Theorem C49_minmax {A} (lt : A -> A -> bool) im : weak_order lt -> pix im <> [] ->
  exists lo hi, im_minmax lt im = Ok (lo, hi) /\ In lo (pix im) /\ In hi (pix im) /\
    forall x, In x (pix im) -> lt x lo = false /\ lt hi x = false.
Proof.
  intros (I & T & N) H; destruct (vminmax_ok lt I T N (pix im) H) as ([lo hi] & E & P); exists lo, hi; split; auto.
Qed.
Print Assumptions C49_minmax.

Lemma reprN_all {A} (im : image A) ds f m : ReprN im ds f -> In m (pix im) <-> exists idx, in_range ds idx /\ f idx = m.
Proof.
  intros (D & L & P); split.
  - intros H; apply In_nth_error in H as (k & Hk); assert (Kl : k < prodn ds) by (rewrite <- L; apply nth_error_Some; congruence).
    destruct (unoff_spec ds k Kl) as [IR Eo]; exists (unoff ds k); split; auto.
    specialize (P _ IR); rewrite Eo in P; congruence.
  - intros (idx & IR & <-); eapply nth_error_In, P, IR.
Qed.

(** three channels: each channel separately *)
Theorem C49_min_channels {A} (lt : A -> A -> bool) s d1 im ds r g b : weak_order lt -> sched1_ok s -> 0 < prodn ds ->
  ReprN im ds (fun i => [r i; g i; b i]) ->
  exists mr mg mb, im_min3 lt s d1 im = Ok [mr; mg; mb] /\
    (exists i, in_range ds i /\ r i = mr) /\ (exists i, in_range ds i /\ g i = mg) /\ (exists i, in_range ds i /\ b i = mb) /\
    forall i, in_range ds i -> lt (r i) mr = false /\ lt (g i) mg = false /\ lt (b i) mb = false.
Proof.
  intros HW Hs Hp HR; unfold im_min3; cbn [seq mapM].
  destruct (get_plane_ReprN s Hs d1 im ds _ 0 r HR Hp) as (p0 & E0 & R0); [auto|].
  destruct (get_plane_ReprN s Hs d1 im ds _ 1 g HR Hp) as (p1 & E1 & R1); [auto|].
  destruct (get_plane_ReprN s Hs d1 im ds _ 2 b HR Hp) as (p2 & E2 & R2); [auto|].
  assert (NE : forall p f, ReprN p ds f -> pix p <> (@nil A)) by (intros p f (_ & L & _) E; rewrite E in L; cbn in L; lia).
  destruct (C49_min lt p0 HW (NE _ _ R0)) as (m0 & M0 & I0 & B0).
  destruct (C49_min lt p1 HW (NE _ _ R1)) as (m1 & M1 & I1 & B1).
  destruct (C49_min lt p2 HW (NE _ _ R2)) as (m2 & M2 & I2 & B2).
  exists m0, m1, m2; rewrite E0, E1, E2; cbn [bind]; rewrite M0, M1, M2; cbn [bind]; split; auto.
  rewrite (reprN_all _ _ _ _ R0) in I0; rewrite (reprN_all _ _ _ _ R1) in I1; rewrite (reprN_all _ _ _ _ R2) in I2.
  split; auto; split; auto; split; auto; intros i Hi; split; [|split]; [apply B0 | apply B1 | apply B2]; eapply reprN_all; eauto.
Qed.
Print Assumptions C49_min_channels.

Theorem C49_max_channels {A} (lt : A -> A -> bool) s d1 im ds r g b : weak_order lt -> sched1_ok s -> 0 < prodn ds ->
  ReprN im ds (fun i => [r i; g i; b i]) ->
  exists mr mg mb, im_max3 lt s d1 im = Ok [mr; mg; mb] /\
    (exists i, in_range ds i /\ r i = mr) /\ (exists i, in_range ds i /\ g i = mg) /\ (exists i, in_range ds i /\ b i = mb) /\
    forall i, in_range ds i -> lt mr (r i) = false /\ lt mg (g i) = false /\ lt mb (b i) = false.
Proof.
  intros HW Hs Hp HR; unfold im_max3; cbn [seq mapM].
  destruct (get_plane_ReprN s Hs d1 im ds _ 0 r HR Hp) as (p0 & E0 & R0); [auto|].
  destruct (get_plane_ReprN s Hs d1 im ds _ 1 g HR Hp) as (p1 & E1 & R1); [auto|].
  destruct (get_plane_ReprN s Hs d1 im ds _ 2 b HR Hp) as (p2 & E2 & R2); [auto|].
  assert (NE : forall p f, ReprN p ds f -> pix p <> (@nil A)) by (intros p f (_ & L & _) E; rewrite E in L; cbn in L; lia).
  destruct (C49_max lt p0 HW (NE _ _ R0)) as (m0 & M0 & I0 & B0).
  destruct (C49_max lt p1 HW (NE _ _ R1)) as (m1 & M1 & I1 & B1).
  destruct (C49_max lt p2 HW (NE _ _ R2)) as (m2 & M2 & I2 & B2).
  exists m0, m1, m2; rewrite E0, E1, E2; cbn [bind]; rewrite M0, M1, M2; cbn [bind]; split; auto.
  rewrite (reprN_all _ _ _ _ R0) in I0; rewrite (reprN_all _ _ _ _ R1) in I1; rewrite (reprN_all _ _ _ _ R2) in I2.
  split; auto; split; auto; split; auto; intros i Hi; split; [|split]; [apply B0 | apply B1 | apply B2]; eapply reprN_all; eauto.
Qed.
Print Assumptions C49_max_channels.

(** MultiChannel with another number of channels: the fourth is ignored, with two an exception is thrown *)
Theorem C49_multichannel_refuted :
  im_min_mc Z.ltb seq0 0%Z 4 (mkImage [2; 1] [[5; 6; 7; 1]; [4; 9; 7; 2]]%Z) = Ok [4; 6; 7]%Z /\
  im_min_mc Z.ltb seq0 0%Z 2 (mkImage [1; 1] [[5; 6]]%Z) = Throw RuntimeError.
Proof. split; reflexivity. Qed.
Print Assumptions C49_multichannel_refuted.

(** [n] is the number of positions that hold [t] *)
Definition occurs {A} (im : image A) (t : A) (n : nat) : Prop :=
  exists ps, NoDup ps /\ length ps = n /\ forall i, In i ps <-> nth_error (pix im) i = Some t.

Theorem C49_count {A} (eqb : A -> A -> bool) im t : (forall a b, eqb a b = true <-> a = b) -> occurs im t (im_count eqb im t).
Proof. intros H; destruct (hits_spec eqb H (pix im) t) as [N P]; exists (hits eqb (pix im) t); split; [exact N|]; split; [symmetry; apply (count_hits eqb H) | exact P]. Qed.
Print Assumptions C49_count.

Theorem C49_count_policy {A} (eqb : A -> A -> bool) im t n : (forall a b, eqb a b = true <-> a = b) -> im_count_policy eqb im t n -> occurs im t n.
Proof. intros H C; apply (count_policy_hits eqb H) in C; subst n; rewrite <- (count_hits eqb H); apply C49_count; auto. Qed.
Print Assumptions C49_count_policy.

(** some combination exists: the theorem above is not void *)
Theorem C49_count_policy_exists {A} (eqb : A -> A -> bool) im t : exists n, im_count_policy eqb im t n.
Proof. apply reduces_exists; discriminate. Qed.
Print Assumptions C49_count_policy_exists.

Theorem C49_replace {A} (eqb : A -> A -> bool) s im t v : (forall a b, eqb a b = true <-> a = b) -> sched1_ok s ->
  exists o, im_replace eqb s im t v = Ok o /\ dims o = dims im /\ length (pix o) = length (pix im) /\
    (forall i, nth_error (pix im) i = Some t -> nth_error (pix o) i = Some v) /\
    (forall i x, nth_error (pix im) i = Some x -> x <> t -> nth_error (pix o) i = Some x).
Proof.
  intros He Hs; unfold im_replace.
  destruct (replace_loop eqb t v (s (length (pix im)))) with (p0 := pix im) (p := pix im) as (q & Eq & Lq & Hq); auto.
  - eapply Permutation_NoDup; [apply Permutation_sym, Hs | apply seq_NoDup].
  - intros i Hi; apply (sched1_in s) in Hi; auto.
  - rewrite Eq; cbn [bind]; eexists; split; [reflexivity|]; cbn [dims pix]; split; auto; split; auto.
    assert (G : forall i x, nth_error (pix im) i = Some x -> nth_error q i = Some (if eqb x t then v else x)).
    { intros i x Hx; rewrite Hq, Hx; destruct (in_dec Nat.eq_dec i (s (length (pix im)))) as [|N]; auto.
      exfalso; apply N, (sched1_in s); auto; apply nth_error_Some; congruence. }
    split.
    + intros i Hi; rewrite (G _ _ Hi), (proj2 (He t t) eq_refl); auto.
    + intros i x Hi Hx; rewrite (G _ _ Hi); destruct (eqb x t) eqn:E; auto; apply He in E; tauto.
Qed.
Print Assumptions C49_replace.

Theorem C49_unique {A} (eqb : A -> A -> bool) im t : (forall a b, eqb a b = true <-> a = b) ->
  unique_value eqb im t = true <-> exists! i, nth_error (pix im) i = Some t.
Proof.
  intros H; unfold unique_value; rewrite Nat.eqb_eq; destruct (C49_count eqb im t H) as (ps & N & L & P); rewrite <- L; split.
  - destruct ps as [|i [|? ?]]; cbn; try discriminate; intros _; exists i; split; [apply P; left; auto|].
    intros j Hj; apply P in Hj as [->|[]]; auto.
  - intros (i & Hi & U); apply P in Hi; destruct ps as [|a [|b ps]]; [destruct Hi | reflexivity|]; exfalso.
    assert (a = i) by (symmetry; apply U, P; left; auto); assert (b = i) by (symmetry; apply U, P; right; left; auto); subst a b.
    apply NoDup_cons_iff in N as [N _]; apply N; left; auto.
Qed.
Print Assumptions C49_unique.

(** ** C50 *)
(** an unsigned element type of n bits: the sum modulo 2^n, whatever order std::reduce uses *)
Theorem C50_sum_unsigned_partial n im r : (0 <= n)%Z -> Forall (fun a => (0 <= a < 2 ^ n)%Z) (pix im) ->
  im_sum (plus_unsigned n) 0%Z im r -> r = (fold_right Z.add 0 (pix im) mod 2 ^ n)%Z /\ ((fold_right Z.add 0 (pix im) < 2 ^ n)%Z -> r = fold_right Z.add 0%Z (pix im)).
Proof.
  intros Hn HF HR; apply reduces_unsigned in HR; auto; [|constructor; auto; split; [lia | apply Z.pow_pos_nonneg; lia]].
  assert (E : zsum (0%Z :: pix im) = fold_right Z.add 0%Z (pix im)) by reflexivity; rewrite E in HR; split; auto.
  intros HB; rewrite HR, Z.mod_small; auto; split; auto; clear - HF; induction HF; cbn [fold_right]; lia.
Qed.
Print Assumptions C50_sum_unsigned_partial.

Theorem C50_sum_uint8_refuted : exists im, Forall (fun a => (0 <= a < 256)%Z) (pix im) /\ fold_right Z.add 0%Z (pix im) = 300%Z /\
  forall r, im_sum (plus_unsigned 8) 0%Z im r -> r = 44%Z.
Proof.
  exists (mkImage [2; 1] [200; 100]%Z); split; [repeat constructor; lia|]; split; [reflexivity|].
  intros r HR; apply (C50_sum_unsigned_partial 8) in HR; [|lia | repeat constructor; cbn; lia]; destruct HR as [-> _]; reflexivity.
Qed.
Print Assumptions C50_sum_uint8_refuted.

(** a signed element type: exact as long as the absolute values add up within the range *)
Theorem C50_sum_signed_partial lo hi im r : (lo <= 0 <= hi)%Z -> (fold_right Z.add 0 (map Z.abs (pix im)) <= Z.min (- lo) hi)%Z ->
  im_sum_signed lo hi im r -> r = Ok (fold_right Z.add 0%Z (pix im)).
Proof. intros Hb HS HR; apply reduces_signed in HR; auto. Qed.
Print Assumptions C50_sum_signed_partial.

(** floating elements, exact arithmetic *)
Theorem C50_sum_floating im r : im_sum Qplus 0%Q im r -> (r == fold_right Qplus 0 (pix im))%Q.
Proof. intros HR; apply reduces_q in HR; rewrite HR; unfold qsum; cbn [fold_right]; ring. Qed.
Print Assumptions C50_sum_floating.

Theorem C50_mean_floating im r : im_mean_q im r -> (dims im <> [] /\ wf im /\ 0 < length (pix im)) ->
  exists m, r = Some m /\ (m * qn (length (pix im)) == fold_right Qplus 0 (pix im))%Q.
Proof.
  intros (s & HS & ->) (HD & HW & HL); apply C50_sum_floating in HS.
  replace (count im) with (length (pix im)) by (unfold count, wf in *; auto).
  replace (length (pix im) =? 0) with false by lia; eexists; split; [reflexivity|].
  rewrite HS; field; intros E; assert (L : (qn 0 < qn (length (pix im)))%Q) by (apply qn_lt; auto); change (qn 0) with 0%Q in L; rewrite E in L; discriminate.
Qed.
Print Assumptions C50_mean_floating.

(** unsigned elements: the truncated quotient of the wrapped sum *)
Theorem C50_mean_unsigned_partial n im r : (0 <= n <= 64)%Z -> wf im -> 0 < length (pix im) -> Forall (fun a => (0 <= a < 2 ^ n)%Z) (pix im) ->
  (fold_right Z.add 0 (pix im) < 2 ^ n)%Z -> im_mean_unsigned n im r -> r = Ok (fold_right Z.add 0 (pix im) / Z.of_nat (length (pix im)))%Z.
Proof.
  intros Hn HW HL HF HB (s & HS & ->); apply C50_sum_unsigned_partial in HS; auto; [|lia]; destruct HS as [_ HS]; rewrite (HS HB).
  replace (count im) with (length (pix im)) by (unfold count, wf in *; auto).
  unfold mean_div; replace (length (pix im) =? 0) with false by lia; do 2 f_equal; unfold w64; apply Z.mod_small; split.
  - clear - HF; induction HF; cbn [fold_right]; lia.
  - eapply Z.lt_le_trans; [exact HB|]; unfold two64; apply Z.pow_le_mono_r; lia.
Qed.
Print Assumptions C50_mean_unsigned_partial.

(** signed elements: a negative sum is divided as an unsigned number *)
Theorem C50_mean_signed_refuted : exists im, pix im = [-1; -1]%Z /\
  forall r, im_mean_signed (- 2 ^ 31) (2 ^ 31 - 1) im r -> r = Ok (2 ^ 63 - 1)%Z.
Proof.
  exists (mkImage [2; 1] [-1; -1]%Z); split; [reflexivity|]; intros r (s & HS & ->).
  apply C50_sum_signed_partial in HS; [subst s; vm_compute; reflexivity | lia | vm_compute; discriminate].
Qed.
Print Assumptions C50_mean_signed_refuted.

(** sum and mean have a result for every image and every order of combination the policy may choose one of *)
Theorem C50_results_exist :
  (forall A (plus : A -> A -> A) zero im, exists r, im_sum plus zero im r) /\
  (forall lo hi im, exists r, im_sum_signed lo hi im r) /\
  (forall n im, exists r, im_mean_unsigned n im r) /\ (forall lo hi im, exists r, im_mean_signed lo hi im r) /\
  (forall im, exists r, im_mean_q im r).
Proof.
  assert (S : forall A (plus : A -> A -> A) zero im, exists r, im_sum plus zero im r) by (intros; apply reduces_exists; discriminate).
  assert (G : forall lo hi im, exists r, im_sum_signed lo hi im r) by (intros; apply reduces_exists; discriminate).
  split; [exact S|]; split; [exact G|]; split; [|split].
  - intros n im; destruct (S Z (plus_unsigned n) 0%Z im) as [s Hs]; eexists; exists s; eauto.
  - intros lo hi im; destruct (G lo hi im) as [s Hs]; eexists; exists s; eauto.
  - intros im; destruct (S Q Qplus 0%Q im) as [s Hs]; eexists; exists s; eauto.
Qed.
Print Assumptions C50_results_exist.

(** ** C51 *)
(** the pixel differences are representable: all pixels lie in a range no wider than the type of the difference *)
Definition within (lo hi : Z) (im : image Z) : Prop := Forall (fun a => (lo <= a <= hi)%Z) (pix im).

Theorem C51_defined lo hi m x y : wf x -> wf y -> dims x = dims y -> 0 < prodn (dims x) -> within lo hi x -> within lo hi y -> (hi - lo <= m)%Z ->
  exists d, manhattan_distance m x y = Ok d /\ (0 <= d)%Z /\ (d = 0%Z <-> x = y) /\ manhattan_distance m y x = Ok d /\
    d = fold_right Z.add 0%Z (map (fun ab => Z.abs (fst ab - snd ab)) (combine (pix x) (pix y))).
Proof.
  intros Wx Wy E Hp Bx By Hm.
  assert (B : forall u v, within lo hi u -> within lo hi v -> forall k a b, nth_error (pix u) k = Some a -> nth_error (pix v) k = Some b -> (Z.abs (a - b) <= m)%Z).
  { intros u v Bu Bv k a b Ha Hb; apply nth_error_In in Ha, Hb; unfold within in *; rewrite Forall_forall in *; specialize (Bu _ Ha); specialize (Bv _ Hb); cbn in *; lia. }
  assert (L : length (pix x) = length (pix y)) by (unfold wf in *; congruence).
  exists (zdist (pix x) (pix y)); split; [apply manhattan_ok; eauto|]; split; [apply zdist_nonneg|]; split; [|split; [|reflexivity]].
  - rewrite zdist_zero by auto; split; [|intros ->; auto]; destruct x, y; cbn in *; congruence.
  - rewrite zdist_sym; apply manhattan_ok; eauto; rewrite <- E; auto.
Qed.
Print Assumptions C51_defined.

Theorem C51_triangle lo hi m x y z : wf x -> wf y -> wf z -> dims x = dims y -> dims y = dims z -> 0 < prodn (dims x) ->
  within lo hi x -> within lo hi y -> within lo hi z -> (hi - lo <= m)%Z ->
  exists dxy dyz dxz, manhattan_distance m x y = Ok dxy /\ manhattan_distance m y z = Ok dyz /\ manhattan_distance m x z = Ok dxz /\ (dxz <= dxy + dyz)%Z.
Proof.
  intros Wx Wy Wz E1 E2 Hp Bx By Bz Hm.
  destruct (C51_defined lo hi m x y) as (d1 & M1 & _ & _ & _ & F1); auto.
  destruct (C51_defined lo hi m y z) as (d2 & M2 & _ & _ & _ & F2); auto; [rewrite <- E1; auto|].
  destruct (C51_defined lo hi m x z) as (d3 & M3 & _ & _ & _ & F3); auto; [congruence|].
  exists d1, d2, d3; split; auto; split; auto; split; auto; subst; apply zdist_tri; unfold wf in *; congruence.
Qed.
Print Assumptions C51_triangle.

Theorem C51_throws m x y : dims x <> dims y -> manhattan_distance m x y = Throw RuntimeError.
Proof. intros H; unfold manhattan_distance, size_eqb; destruct (list_eq_dec Nat.eq_dec (dims x) (dims y)); [tauto | reflexivity]. Qed.
Print Assumptions C51_throws.

(** int pixels: the difference of the extreme values overflows *)
Theorem C51_overflow_refuted : exists x y, dims x = dims y /\ manhattan_distance (2 ^ 31 - 1) x y = UB.
Proof. exists (mkImage [1; 1] [2 ^ 31 - 1]%Z), (mkImage [1; 1] [- 2 ^ 31]%Z); split; reflexivity. Qed.
Print Assumptions C51_overflow_refuted.

(** ** C79: the Euclidean distance; [conv] is the (injective, exact) conversion of an element to double *)
Theorem C79_defined {A} (conv : A -> R) x y : wf x -> wf y -> dims x = dims y -> (forall a b, conv a = conv b -> a = b) ->
  exists d, (0 <= d)%R /\ (d = 0%R <-> x = y) /\ (forall r, euclidean_distance (fun a b => conv a - conv b)%R x y r <-> r = Ok d) /\
    (forall r, euclidean_distance (fun a b => conv a - conv b)%R y x r <-> r = Ok d).
Proof.
  intros Wx Wy E HI; exists (sqrt (sqd (combine (map conv (pix x)) (map conv (pix y))))).
  assert (L : length (pix x) = length (pix y)) by (unfold wf in *; congruence).
  assert (LM : length (map conv (pix x)) = length (map conv (pix y))) by (rewrite !map_length; auto).
  split; [apply sqrt_pos|]; split; [|split].
  - split.
    + intros Z; apply sqrt_eq_0 in Z; [|apply sqd_nonneg]; apply sqd_zero in Z; auto.
      assert (P : pix x = pix y) by (apply (map_inj conv) || (revert Z; generalize (pix y); clear - HI; induction (pix x) as [|a l IH]; intros [|b m] Z; try discriminate; auto; injection Z as Z1 Z2; f_equal; auto)).
      destruct x, y; cbn in *; congruence.
    + intros ->; rewrite (proj2 (sqd_zero _ _ eq_refl) eq_refl); apply sqrt_0.
  - intros r; apply euclid_ok; auto.
  - intros r; rewrite euclid_ok by auto; rewrite sqd_sym; reflexivity.
Qed.
Print Assumptions C79_defined.

Theorem C79_triangle {A} (conv : A -> R) x y z : wf x -> wf y -> wf z -> dims x = dims y -> dims y = dims z ->
  forall dxy dyz dxz, euclidean_distance (fun a b => conv a - conv b)%R x y (Ok dxy) -> euclidean_distance (fun a b => conv a - conv b)%R y z (Ok dyz) ->
    euclidean_distance (fun a b => conv a - conv b)%R x z (Ok dxz) -> (dxz <= dxy + dyz)%R.
Proof.
  intros Wx Wy Wz E1 E2 d1 d2 d3 H1 H2 H3; apply euclid_ok in H1, H2, H3; auto; [|congruence].
  injection H1 as ->; injection H2 as ->; injection H3 as ->; apply sqd_tri; rewrite !map_length; unfold wf in *; congruence.
Qed.
Print Assumptions C79_triangle.

(** the value: the root of the sum of the squared differences *)
Theorem C79_value {A} (conv : A -> R) x y d : wf x -> wf y -> dims x = dims y -> euclidean_distance (fun a b => conv a - conv b)%R x y (Ok d) ->
  (d * d = fold_right Rplus 0 (map (fun ab => (conv (fst ab) - conv (snd ab)) * (conv (fst ab) - conv (snd ab))) (combine (pix x) (pix y))))%R.
Proof.
  intros Wx Wy E H; apply euclid_ok in H; auto; injection H as ->; rewrite sqrt_sqrt by apply sqd_nonneg.
  unfold sqd, rsuml; clear; generalize (pix y); induction (pix x) as [|a l IH]; intros [|b m]; cbn [map combine fold_right fst snd]; auto; rewrite IH; ring.
Qed.
Print Assumptions C79_value.

Theorem C79_throws {A} (sub : A -> A -> R) x y r : dims x <> dims y -> euclidean_distance sub x y r -> r = Throw RuntimeError.
Proof. intros H; unfold euclidean_distance, size_eqb; destruct (list_eq_dec Nat.eq_dec (dims x) (dims y)); [tauto | auto]. Qed.
Print Assumptions C79_throws.

(** 32-bit unsigned pixels: the subtraction wraps before the conversion, so the distance is neither right nor symmetric *)
Theorem C79_uint32_refuted : exists x y, forall dxy dyx, euclidean_distance sub_uint32 x y (Ok dxy) -> euclidean_distance sub_uint32 y x (Ok dyx) ->
  dxy = 4294967295%R /\ dyx = 1%R.
Proof.
  exists (mkImage [1; 1] [0%Z]), (mkImage [1; 1] [1%Z]); unfold euclidean_distance; cbn [dims pix length Nat.eqb size_eqb].
  change (size_eqb [1; 1] [1; 1]) with true; cbn [negb].
  intros dxy dyx (p & s & Ep & HR & Hd) (p' & s' & Ep' & HR' & Hd'); injection Ep as <-; injection Ep' as <-; injection Hd as ->; injection Hd' as ->.
  apply reduces_r in HR, HR'; unfold rsuml in *; cbn [fold_right] in *.
  assert (U1 : sub_uint32 0 1 = 4294967295%R) by (unfold sub_uint32; reflexivity).
  assert (U2 : sub_uint32 1 0 = 1%R) by (unfold sub_uint32; reflexivity).
  rewrite U1 in HR; rewrite U2 in HR'; subst s s'; split.
  - match goal with |- sqrt ?t = _ => replace t with (4294967295 ^ 2)%R by ring end; apply sqrt_pow2; lra.
  - match goal with |- sqrt ?t = _ => replace t with (1 ^ 2)%R by ring end; apply sqrt_pow2; lra.
Qed.
Print Assumptions C79_uint32_refuted.

(** arrays and ranges *)
Theorem C79_array p q : length p = length q -> (euclidean_array p q * euclidean_array p q = fold_right Rplus 0 (map (fun ab => (fst ab - snd ab) * (fst ab - snd ab)) (combine p q)))%R /\ (0 <= euclidean_array p q)%R.
Proof.
  intros _; unfold euclidean_array; split; [|apply sqrt_pos].
  assert (G : forall l s, fold_left (fun s d => (s + d * d)%R) (map (fun ab : R * R => (fst ab - snd ab)%R) l) s = (s + fold_right Rplus 0 (map (fun ab => (fst ab - snd ab) * (fst ab - snd ab)) l))%R).
  { induction l as [|a l IH]; intros s; cbn [map fold_left fold_right]; [ring|]; rewrite IH; ring. }
  rewrite sqrt_sqrt; rewrite G; [ring|].
  apply Rplus_le_le_0_compat; [lra|]; generalize (combine p q); induction l as [|a l IH]; cbn [map fold_right]; [lra|]; assert (Q := Rle_0_sqr (fst a - snd a)); unfold Rsqr in Q; lra.
Qed.
Print Assumptions C79_array.

Theorem C79_range p q : (length p = length q -> squared_range p q 0 = Ok (fold_right Rplus 0%R (map (fun ab => (fst ab - snd ab) * (fst ab - snd ab))%R (combine p q)))) /\
  (length p <> length q -> squared_range p q 0 = Throw RuntimeError).
Proof.
  assert (G : forall p q s, (length p = length q -> squared_range p q s = Ok (s + fold_right Rplus 0 (map (fun ab => (fst ab - snd ab) * (fst ab - snd ab)) (combine p q)))%R) /\
    (length p <> length q -> squared_range p q s = Throw RuntimeError)).
  { clear; induction p as [|a p IH]; intros [|b q] s; cbn [squared_range length combine map fold_right fst snd]; split; intros L; try lia; auto.
    - f_equal; ring.
    - rewrite (proj1 (IH q _)) by lia; f_equal; ring.
    - apply IH; lia. }
  destruct (G p q 0%R) as [G1 G2]; split; auto; intros L; rewrite G1 by auto; f_equal; ring.
Qed.
Print Assumptions C79_range.

(** ** cases *)
Lemma Z_weak_order : weak_order Z.ltb.
Proof. split; [|split]; intros; lia. Qed.
Example C49_minmax_case : im_minmax Z.ltb (mkImage [5; 1] [3; -7; 12; 0; 12]%Z) = Ok (-7, 12)%Z /\ im_min Z.ltb (mkImage [3; 1] [3; -7; 12]%Z) = Ok (-7)%Z.
Proof. split; reflexivity. Qed.
Example C49_replace_case : im_replace Z.eqb seq0 (mkImage [2; 2] [1; 2; 1; 3]%Z) 1%Z 9%Z = Ok (mkImage [2; 2] [9; 2; 9; 3]%Z) /\
  im_count Z.eqb (mkImage [2; 2] [1; 2; 1; 3]%Z) 1%Z = 2 /\ unique_value Z.eqb (mkImage [2; 2] [1; 2; 1; 3]%Z) 3%Z = true.
Proof. split; [|split]; reflexivity. Qed.
Example C50_mean_case : exists r, im_mean_unsigned 8 (mkImage [2; 2] [10; 20; 30; 41]%Z) r /\ r = Ok 25%Z.
Proof.
  destruct (reduces_exists (plus_unsigned 8) [0; 10; 20; 30; 41]%Z) as [s Hs]; [discriminate|].
  eexists; split; [exists s; split; [exact Hs | reflexivity]|].
  assert (X : im_sum (plus_unsigned 8) 0%Z (mkImage [2; 2] [10; 20; 30; 41]%Z) s) by exact Hs.
  apply (C50_sum_unsigned_partial 8) in X; [|lia | repeat constructor; cbn; lia]; destruct X as [-> _]; reflexivity.
Qed.
Example C51_case : manhattan_distance (2 ^ 31 - 1) (mkImage [2; 2] [0; 255; 7; 9]%Z) (mkImage [2; 2] [255; 0; 8; 9]%Z) = Ok 511%Z.
Proof. reflexivity. Qed.
Example C79_case : euclidean_distance (fun a b => IZR a - IZR b)%R (mkImage [2; 1] [0; 5]%Z) (mkImage [2; 1] [3; 1]%Z) (Ok 5%R).
Proof.
  apply euclid_ok; try reflexivity; unfold sqd, rsuml; cbn [pix map combine fold_right fst snd]; f_equal.
  match goal with |- _ = sqrt ?t => replace t with (5 ^ 2)%R by ring end; symmetry; apply sqrt_pow2; lra.
Qed.
