(** PropFourier.v - C46, C47: cosine and Fourier transforms, over the real numbers. *)
From Coq Require Import Reals Lra ZifyBool ZifyNat.
From Verif Require Import Base BigSum RSum ImageModel ImageFacts IndexModel ImageProofs GeomModel PixelModel PixelProofs FourierModel FourierProofs.
Open Scope nat_scope.

(** ** specification *)
(** sum over i < n *)
Fixpoint sum (f : nat -> R) (n : nat) : R := match n with 0 => 0%R | S n => (sum f n + f n)%R end.
Lemma sum_rsum f n : sum f n = rsum f (seq 0 n).
Proof. induction n as [|n IH]; [reflexivity|]; rewrite rsum_S; cbn [sum]; rewrite IH; auto. Qed.

(** the weight of a frequency *)
Definition weight (k : nat) : R := match k with 0 => (/ sqrt 2)%R | _ => 1%R end.
Definition phase (N m x : nat) : R := (PI * (2 * INR m + 1) * INR x / (2 * INR N))%R.

Lemma weight_alpha k : weight k = alpha k.
Proof.
  destruct k; unfold weight, alpha; cbn [Nat.eqb]; auto.
  assert (H : (sqrt 2 * sqrt 2 = 2)%R) by (apply sqrt_sqrt; lra).
  assert (S0 : (0 < sqrt 2)%R) by (apply sqrt_lt_R0; lra).
  apply Rmult_eq_reg_l with (sqrt 2); [|lra]; rewrite Rinv_r by lra; lra.
Qed.

(** ** C46 *)
(** the coefficients *)
Theorem C46_coefficients {A} (conv : A -> R) sg im w h f : sched_ok sg -> Repr im w h f -> 0 < w -> 0 < h ->
  exists o, dct2 conv sg im = Ok o /\
    Repr o w h (fun x y => 4 * sqrt 2 * weight x * weight y / (INR w * INR h) *
      sum (fun n => sum (fun m => conv (f m n) * cos (phase w m x) * cos (phase h n y)) w) h)%R.
Proof.
  intros Hs HR Hw Hh; unfold dct2; destruct (cast_Repr conv im w h f Hw Hh HR) as (v & -> & Rv); cbn [bind].
  destruct (dct3_one_plane_spec sg [v] w h 1 _ 0 Hs (Vol_one v w h _ Rv) ltac:(lia)) as (o & Eo & Ro); exists o; split; auto.
  assert (0 < INR w)%R by (apply lt_0_INR; lia); assert (0 < INR h)%R by (apply lt_0_INR; lia).
  eapply Repr_ext; [exact Ro|]; intros x y Hx Hy; unfold dct_value; rewrite rsum_trip; cbn [seq]; rewrite rsum_cons; cbn [fst snd].
  rewrite rsum_nil, Rplus_0_r, sum_rsum, <- rsum_scale; apply rsum_ext; intros n _.
  rewrite sum_rsum, <- rsum_scale; apply rsum_ext; intros m _; unfold kern3, FK; cbn [fst snd]; rewrite !weight_alpha.
  assert (P0 : dct_angle 1 0 0 = 0%R) by (unfold dct_angle; cbn [INR]; lra); rewrite P0, cos_0.
  assert (P1 : dct_angle w m x = phase w m x) by (unfold dct_angle, phase; field; lra).
  assert (P2 : dct_angle h n y = phase h n y) by (unfold dct_angle, phase; field; lra).
  rewrite P1, P2; unfold alpha at 1; cbn [Nat.eqb INR]; field; lra.
Qed.
Print Assumptions C46_coefficients.

(** the inverse undoes the transform, for every order of the parallel loops *)
Theorem C46_idct_dct {A} (conv : A -> R) sg sg' im w h f : sched_ok sg -> sched_ok sg' -> Repr im w h f -> 0 < w -> 0 < h ->
  exists t o, dct2 conv sg im = Ok t /\ idct2 (fun v => v) sg' t = Ok o /\ Repr o w h (fun x y => conv (f x y)).
Proof.
  intros Hs Hs' HR Hw Hh; unfold dct2, idct2; destruct (cast_Repr conv im w h f Hw Hh HR) as (v & -> & Rv); cbn [bind].
  destruct (dct3_one_plane_spec sg [v] w h 1 _ 0 Hs (Vol_one v w h _ Rv) ltac:(lia)) as (t & Et & Rt).
  destruct (cast_Repr (fun v => v) t w h _ Hw Hh Rt) as (u & Eu & Ru).
  destruct (idct3_one_plane_spec sg' [u] w h 1 _ 0 Hs' (Vol_one u w h _ Ru) ltac:(lia)) as (o & Eo & Ro).
  exists t, o; split; auto; rewrite Eu; cbn [bind]; split; auto.
  eapply Repr_ext; [exact Ro|]; intros x y Hx Hy.
  rewrite (idct_value_ext _ _ _ _ (dct_value 1 h w (fun _ x y => conv (f x y)))) by (intros a b c Ha _ _; replace a with 0 by lia; auto).
  rewrite idct_dct_value by (auto; lia); auto.
Qed.
Print Assumptions C46_idct_dct.

(** and the transform undoes the inverse *)
Theorem C46_dct_idct {A} (conv : A -> R) sg sg' im w h f : sched_ok sg -> sched_ok sg' -> Repr im w h f -> 0 < w -> 0 < h ->
  exists t o, idct2 conv sg im = Ok t /\ dct2 (fun v => v) sg' t = Ok o /\ Repr o w h (fun x y => conv (f x y)).
Proof.
  intros Hs Hs' HR Hw Hh; unfold dct2, idct2; destruct (cast_Repr conv im w h f Hw Hh HR) as (v & -> & Rv); cbn [bind].
  destruct (idct3_one_plane_spec sg [v] w h 1 _ 0 Hs (Vol_one v w h _ Rv) ltac:(lia)) as (t & Et & Rt).
  destruct (cast_Repr (fun v => v) t w h _ Hw Hh Rt) as (u & Eu & Ru).
  destruct (dct3_one_plane_spec sg' [u] w h 1 _ 0 Hs' (Vol_one u w h _ Ru) ltac:(lia)) as (o & Eo & Ro).
  exists t, o; split; auto; rewrite Eu; cbn [bind]; split; auto.
  eapply Repr_ext; [exact Ro|]; intros x y Hx Hy.
  rewrite (dct_value_ext _ _ _ _ (idct_value 1 h w (fun _ x y => conv (f x y)))) by (intros a b c Ha _ _; replace a with 0 by lia; auto).
  rewrite dct_idct_value by (auto; lia); auto.
Qed.
Print Assumptions C46_dct_idct.

(** volumes: dct3 followed by idct3_one_plane gives back every plane; the other way round too *)
Theorem C46_volume sg sg' v w h d f : sched_ok sg -> sched_ok sg' -> Vol v w h d f ->
  (exists ts, dct3 sg v = Ok ts /\ forall k, k < d -> exists o, idct3_one_plane sg' ts k = Ok o /\ Repr o w h (f k)) /\
  (exists ts, mapM (idct3_one_plane sg v) (seq 0 d) = Ok ts /\ forall k, k < d -> exists o, dct3_one_plane sg' ts k = Ok o /\ Repr o w h (f k)).
Proof.
  intros Hs Hs' HV; pose proof HV as [L _]; split.
  - unfold dct3; rewrite L.
    destruct (mapM_planes (dct3_one_plane sg v) w h d (dct_value d h w f)) as (ts & E & HT); [intros; apply dct3_one_plane_spec; auto|].
    exists ts; split; auto; intros k Hk; destruct (idct3_one_plane_spec sg' ts w h d _ k Hs' HT Hk) as (o & Eo & Ro); exists o; split; auto.
    eapply Repr_ext; [exact Ro|]; intros; apply idct_dct_value; auto.
  - destruct (mapM_planes (idct3_one_plane sg v) w h d (idct_value d h w f)) as (ts & E & HT); [intros; apply idct3_one_plane_spec; auto|].
    exists ts; split; auto; intros k Hk; destruct (dct3_one_plane_spec sg' ts w h d _ k Hs' HT Hk) as (o & Eo & Ro); exists o; split; auto.
    eapply Repr_ext; [exact Ro|]; intros; apply dct_idct_value; auto.
Qed.
Print Assumptions C46_volume.

(** three-channel images, plane by plane *)
Theorem C46_three_channels {A} (conv : A -> R) (d : A) s s' sg sg' im w h f : sched1_ok s -> sched1_ok s' -> sched_ok sg -> sched_ok sg' ->
  Repr im w h f -> 0 < w -> 0 < h -> (forall x y, x < w -> y < h -> length (f x y) = 3) ->
  exists t o, dct2_rgb conv d s sg im = Ok t /\ idct2_rgb (fun v => v) 0%R s' sg' t = Ok o /\ Repr o w h (fun x y => map conv (f x y)).
Proof.
  intros Hs Hs' Hg Hg' HR Hw Hh H3.
  assert (PW : 0 < prodn [w; h]) by (rewrite prodn2; nia).
  set (u := fun (i : list nat) => f (nth 0 i 0) (nth 1 i 0)).
  assert (RN : ReprN im [w; h] u) by (apply Repr_ReprN in HR; exact HR).
  set (F := fun k (i : list nat) => dct_value 1 h w (fun _ x y => conv (nth k (f x y) d)) 0 (nth 0 i 0) (nth 1 i 0)).
  assert (P : forall k p, k < 3 -> (exists g, ReprN p [w; h] g /\ forall i, in_range [w; h] i -> nth_error (u i) k = Some (g i)) ->
     exists o, dct2 conv sg p = Ok o /\ ReprN o [w; h] (F k)).
  { intros k p Hk (g & Rg & Hg1).
    assert (Rp : Repr p w h (fun x y => nth k (f x y) d)).
    { apply Repr_ReprN; eapply ReprN_ext; [exact Rg|]; intros i Hi.
      symmetry; apply nth_error_nth; rewrite <- Hg1 by auto; unfold u; auto. }
    unfold dct2; destruct (cast_Repr conv p w h _ Hw Hh Rp) as (v & -> & Rv); cbn [bind].
    destruct (dct3_one_plane_spec sg [v] w h 1 _ 0 Hg (Vol_one v w h _ Rv) ltac:(lia)) as (o & Eo & Ro); exists o; split; auto.
    apply Repr_ReprN in Ro; exact Ro. }
  destruct (apply_each3_ReprN s d [] (dct2 conv sg) im [w; h] u F Hs RN PW) with (ds' := [w; h]) as (t & Et & Rt); auto.
  { intros i Hi; unfold u; destruct i as [|x [|y [|]]]; try (apply in_range_length in Hi; discriminate); apply in_range2 in Hi; cbn [nth]; apply H3; lia. }
  set (G := fun k (i : list nat) => conv (nth k (f (nth 0 i 0) (nth 1 i 0)) d)).
  assert (P' : forall k p, k < 3 -> (exists g, ReprN p [w; h] g /\ forall i, in_range [w; h] i -> nth_error [F 0 i; F 1 i; F 2 i] k = Some (g i)) ->
     exists o, idct2 (fun v => v) sg' p = Ok o /\ ReprN o [w; h] (G k)).
  { intros k p Hk (g & Rg & Hg1).
    assert (Rp : Repr p w h (dct_value 1 h w (fun _ x y => conv (nth k (f x y) d)) 0)).
    { apply Repr_ReprN; eapply ReprN_ext; [exact Rg|]; intros i Hi; specialize (Hg1 i Hi).
      assert (Hk' : k = 0 \/ k = 1 \/ k = 2) by lia; destruct Hk' as [->|[->| ->]]; cbn [nth_error] in Hg1; injection Hg1 as <-; reflexivity. }
    unfold idct2; destruct (cast_Repr (fun v => v) p w h _ Hw Hh Rp) as (v & -> & Rv); cbn [bind].
    destruct (idct3_one_plane_spec sg' [v] w h 1 _ 0 Hg' (Vol_one v w h _ Rv) ltac:(lia)) as (o & Eo & Ro); exists o; split; auto.
    assert (RG : Repr o w h (fun x y => conv (nth k (f x y) d))); [|apply Repr_ReprN in RG; exact RG].
    eapply Repr_ext; [exact Ro|]; intros x y Hx Hy.
    rewrite (idct_value_ext _ _ _ _ (dct_value 1 h w (fun _ x y => conv (nth k (f x y) d)))) by (intros a b c Ha _ _; replace a with 0 by lia; auto).
    rewrite idct_dct_value by (auto; lia); auto. }
  destruct (apply_each3_ReprN s' 0%R [] (idct2 (fun v => v) sg') t [w; h] _ G Hs' Rt PW) with (ds' := [w; h]) as (o & Eo & Ro); auto.
  exists t, o; split; auto; split; auto; apply Repr_ReprN; eapply ReprN_ext; [exact Ro|].
  intros i Hi; destruct i as [|x [|y [|]]]; try (apply in_range_length in Hi; discriminate); apply in_range2 in Hi; unfold G; cbn [nth].
  specialize (H3 x y ltac:(lia) ltac:(lia)); destruct (f x y) as [|a0 [|a1 [|a2 [|]]]]; cbn in H3; try lia; reflexivity.
Qed.
Print Assumptions C46_three_channels.

(** ** C47 *)
(** the coefficients, where negation of an element is exact *)
Theorem C47_coefficients {A} (conv neg : A -> R) im W H f : Repr im W H f -> fits (W * W) -> fits (H * H) -> fits (W * H) ->
  (forall x y, x < W -> y < H -> neg (f x y) = (- conv (f x y))%R) ->
  exists o, dft2 conv neg im = Ok o /\ Repr o W H (fun x y =>
    let t m n := (2 * PI * (INR x * INR m / INR W + INR y * INR n / INR H))%R in
    let s := sqrt (1 / INR (W * H)) in
    (s * sum (fun n => sum (fun m => conv (f m n) * cos (t m n)) W) H, - (s * sum (fun n => sum (fun m => conv (f m n) * sin (t m n)) W) H))%R).
Proof.
  intros HR FW FH FWH HN; destruct (dft2_spec conv neg im W H f HR FW FH FWH HN) as (o & E & Ro); exists o; split; auto.
  eapply Repr_ext; [exact Ro|]; intros x y Hx Hy; cbv zeta; unfold dft_re, dft_im; rewrite !rsum_grid; cbn [fst snd]; f_equal.
  - f_equal; rewrite sum_rsum; apply rsum_ext; intros n _; rewrite sum_rsum; auto.
  - rewrite Ropp_mult_distr_r; f_equal; rewrite sum_rsum.
    transitivity (-1 * rsum (fun n => sum (fun m => conv (f m n) * sin (2 * PI * (INR x * INR m / INR W + INR y * INR n / INR H))) W) (seq 0 H))%R; [|ring].
    rewrite <- rsum_scale; apply rsum_ext; intros n _; rewrite sum_rsum, <- rsum_scale; apply rsum_ext; intros m _; ring.
Qed.
Print Assumptions C47_coefficients.

(** the inverse gives back the image with imaginary part zero *)
Theorem C47_round_trip_partial {A} (conv neg : A -> R) im W H f : Repr im W H f -> fits (W * W) -> fits (H * H) -> fits (W * H) ->
  (forall x y, x < W -> y < H -> neg (f x y) = (- conv (f x y))%R) ->
  exists t o, dft2 conv neg im = Ok t /\ idft2 t = Ok o /\ Repr o W H (fun x y => (conv (f x y), 0%R)).
Proof.
  intros HR FW FH FWH HN; destruct (dft2_spec conv neg im W H f HR FW FH FWH HN) as (t & E & Rt).
  destruct (idft2_spec t W H _ Rt FW FH FWH) as (o & Eo & Ro); exists t, o; split; auto; split; auto.
  eapply Repr_ext; [exact Ro|]; intros x y Hx Hy; apply idft_dft_value; auto.
Qed.
Print Assumptions C47_round_trip_partial.

(** the transform preserves the sum of squares *)
Theorem C47_energy {A} (conv neg : A -> R) im W H f : Repr im W H f -> fits (W * W) -> fits (H * H) -> fits (W * H) ->
  (forall x y, x < W -> y < H -> neg (f x y) = (- conv (f x y))%R) ->
  exists t F, dft2 conv neg im = Ok t /\ Repr t W H F /\
    sum (fun y => sum (fun x => fst (F x y) * fst (F x y) + snd (F x y) * snd (F x y)) W)%R H =
    sum (fun y => sum (fun x => conv (f x y) * conv (f x y)) W)%R H.
Proof.
  intros HR FW FH FWH HN; destruct (dft2_spec conv neg im W H f HR FW FH FWH HN) as (t & E & Rt).
  eexists t, _; split; auto; split; [exact Rt|]; cbn [fst snd].
  pose proof (dft_energy W H (fun x y => conv (f x y))) as P; rewrite !rsum_grid in P; cbn [fst snd] in P.
  rewrite !sum_rsum; etransitivity; [|etransitivity; [exact P|]]; apply rsum_ext; intros y _; rewrite sum_rsum; auto.
Qed.
Print Assumptions C47_energy.

(** unsigned int elements: [-value] is taken modulo 2^32, and the round trip fails *)
Definition neg_uint32 (v : Z) : R := IZR ((- v) mod 2 ^ 32).

Theorem C47_unsigned_refuted : exists im f t o g, Repr im 4 1 f /\ dft2 IZR neg_uint32 im = Ok t /\ idft2 t = Ok o /\ Repr o 4 1 g /\
  g 1 0 <> (IZR (f 1 0), 0%R).
Proof.
  set (f := fun x _ : nat => if x =? 1 then 1%Z else 0%Z).
  set (im := mkImage [4; 1] [0; 1; 0; 0]%Z).
  assert (HR : Repr im 4 1 f).
  { split; [|split]; auto; intros x y Hx Hy; replace y with 0 by lia.
    assert (C : x = 0 \/ x = 1 \/ x = 2 \/ x = 3) by lia; destruct C as [->|[->|[->| ->]]]; reflexivity. }
  assert (F16 : fits (4 * 4)) by (unfold fits, two64; lia); assert (F1 : fits (1 * 1)) by (unfold fits, two64; lia); assert (F4 : fits (4 * 1)) by (unfold fits, two64; lia).
  destruct (dft2_gen IZR neg_uint32 im 4 1 f HR F16 F1 F4) as (t & Et & Rt).
  destruct (idft2_spec t 4 1 _ Rt F16 F1 F4) as (o & Eo & Ro).
  exists im, f, t, o, (idft_value 4 1 (fun x y => (dft_re 4 1 (fun x y => IZR (f x y)) x y, dft_im 4 1 (fun x y => - neg_uint32 (f x y))%R x y))).
  split; auto; split; auto; split; auto; split; auto.
  set (s := sqrt (1 / INR (4 * 1))).
  assert (S2 : (s * s = / 4)%R) by (unfold s; rewrite sqrt_sqrt; cbn; lra).
  assert (RE : forall x, x < 4 -> dft_re 4 1 (fun x y => IZR (f x y)) x 0 = (s * cos (INR x * (PI / 2)))%R).
  { intros x Hx; unfold dft_re; fold s; f_equal; rewrite rsum_grid; cbn [seq]; rewrite rsum_cons, rsum_nil.
    rewrite !rsum_cons, rsum_nil; cbn [fst snd f Nat.eqb].
    replace (2 * PI * (INR x * INR 1 / INR 4 + INR 0 * INR 0 / INR 1))%R with (INR x * (PI / 2))%R by (cbn [INR]; field).
    unfold f; cbn [Nat.eqb]; ring. }
  assert (IM : forall x, x < 4 -> dft_im 4 1 (fun x y => - neg_uint32 (f x y))%R x 0 = (s * (4294967295 * sin (INR x * (PI / 2))))%R).
  { intros x Hx; unfold dft_im; fold s; f_equal; rewrite rsum_grid; cbn [seq]; rewrite rsum_cons, rsum_nil.
    rewrite !rsum_cons, rsum_nil; cbn [fst snd].
    replace (2 * PI * (INR x * INR 1 / INR 4 + INR 0 * INR 0 / INR 1))%R with (INR x * (PI / 2))%R by (cbn [INR]; field).
    unfold f; cbn [Nat.eqb].
    assert (N0 : neg_uint32 0 = 0%R) by reflexivity.
    assert (N1 : neg_uint32 1 = IZR 4294967295) by reflexivity.
    rewrite N0, N1; ring. }
  intros E; apply (f_equal fst) in E; revert E; unfold idft_value; cbn [fst]; fold s.
  rewrite rsum_grid; cbn [seq]; rewrite rsum_cons, rsum_nil, !rsum_cons, rsum_nil; cbn [fst snd].
  rewrite !RE, !IM by lia.
  replace (2 * PI * (INR 1 * INR 0 / INR 4 + INR 0 * INR 0 / INR 1))%R with 0%R by (cbn [INR]; field).
  replace (2 * PI * (INR 1 * INR 1 / INR 4 + INR 0 * INR 0 / INR 1))%R with (PI / 2)%R by (cbn [INR]; field).
  replace (2 * PI * (INR 1 * INR 2 / INR 4 + INR 0 * INR 0 / INR 1))%R with PI by (cbn [INR]; field).
  replace (2 * PI * (INR 1 * INR 3 / INR 4 + INR 0 * INR 0 / INR 1))%R with (3 * (PI / 2))%R by (cbn [INR]; field).
  replace (INR 0 * (PI / 2))%R with 0%R by (cbn [INR]; field).
  replace (INR 1 * (PI / 2))%R with (PI / 2)%R by (cbn [INR]; field).
  replace (INR 2 * (PI / 2))%R with PI by (cbn [INR]; field).
  replace (INR 3 * (PI / 2))%R with (3 * (PI / 2))%R by (cbn [INR]; field).
  rewrite cos_0, sin_0, cos_PI2, sin_PI2, cos_PI, sin_PI, cos_3PI2, sin_3PI2; unfold f; cbn [Nat.eqb]; intros E.
  assert (X : (s * s * (2 - 2 * 4294967295) = 1)%R) by (rewrite <- E; ring).
  rewrite S2 in X; lra.
Qed.
Print Assumptions C47_unsigned_refuted.

(** ** cases *)
Definition dct_im : image Z := mkImage [3; 2] [1; 2; 3; 4; 5; 6]%Z.
Lemma dct_im_Repr : exists f, Repr dct_im 3 2 f /\ f 2 1 = 6%Z.
Proof. exists (fun x y => nth (y * 3 + x) [1; 2; 3; 4; 5; 6]%Z 0%Z); split; [apply (Repr_exists 0%Z); auto | auto]. Qed.

Example C46_case : exists t o g, dct2 IZR grid dct_im = Ok t /\ idct2 (fun v => v) grid t = Ok o /\ Repr o 3 2 g /\ g 2 1 = 6%R.
Proof.
  destruct dct_im_Repr as (f & HR & H6).
  destruct (C46_idct_dct IZR grid grid dct_im 3 2 f sched_ok_grid sched_ok_grid HR) as (t & o & E1 & E2 & R2); try lia.
  exists t, o, (fun x y => IZR (f x y)); rewrite H6; auto.
Qed.

Example C47_case : exists t o g, dft2 IZR (fun z => IZR (- z)) dct_im = Ok t /\ idft2 t = Ok o /\ Repr o 3 2 g /\ g 2 1 = (6%R, 0%R).
Proof.
  destruct dct_im_Repr as (f & HR & H6).
  destruct (C47_round_trip_partial IZR (fun z => IZR (- z)) dct_im 3 2 f HR) as (t & o & E1 & E2 & R2); try (unfold fits, two64; lia).
  - intros x y _ _; rewrite opp_IZR; auto.
  - exists t, o, (fun x y => (IZR (f x y), 0%R)); rewrite H6; auto.
Qed.
