(** PropColour.v - C100 to C102: colours. *)
From Coq Require Import Reals Lra Psatz.
From Verif Require Import Base ImageModel ImageFacts PixelModel PixelProofs OField SiftModel SiftProofs ColourModel ColourProofs.
Open Scope nat_scope.

(** ** C100: hue, saturation and value *)
Definition channel (c : Z) : Prop := (0 <= c <= 255)%Z.

(** (x, y) has length c and direction h degrees *)
Definition direction (h c x y : R) : Prop := (x = c * cos (h * PI / 180) /\ y = c * sin (h * PI / 180))%R.

(** the colour plane: red is at 0 degrees, green at 120, blue at 240 *)
Theorem C100_hsv : forall r g b, channel r -> channel g -> channel b ->
  let vmax := Z.max r (Z.max g b) in let vmin := Z.min r (Z.min g b) in
  exists h s, rgb2hsv [r; g; b] = Ok [h; s; IZR vmax] /\
    (0 <= h < 360)%R /\ (0 <= s <= 1)%R /\ (IZR vmax * s = IZR vmax - IZR vmin)%R /\
    exists c, direction h c (IZR r - (IZR g + IZR b) / 2) (sqrt 3 / 2 * (IZR g - IZR b)) /\
      (vmax <> vmin -> 0 < c)%R /\ (vmax = vmin -> h = 0)%R.
Proof.
  intros r g b (Hr & _) (Hg & _) (Hb & _); cbv zeta.
  pose proof (sat_of_spec r g b Hr Hg Hb) as (Sr & Se).
  pose proof PI_RGT_0 as PP.
  destruct (Z.eq_dec (Z.max r (Z.max g b)) (Z.min r (Z.min g b))) as [E|E].
  - assert (r = g) as -> by lia; assert (g = b) as -> by lia.
    exists 0%R, (sat_of b b b); rewrite rgb2hsv_gray; replace (Z.max b (Z.max b b)) with b in * by lia;
      replace (Z.min b (Z.min b b)) with b in * by lia.
    split; [reflexivity|]; split; [lra|]; split; [auto|]; split; [lra|]; exists 0%R; unfold direction; repeat split; try lra; try lia.
  - assert (Ne : ~ (r = g /\ g = b)) by lia.
    assert (Ne' : ~ (IZR r = IZR g /\ IZR g = IZR b)) by (intros (H1 & H2); apply eq_IZR in H1, H2; auto).
    pose proof (hue_range (IZR r) (IZR g) (IZR b)) as Rg; pose proof (hue_cos _ _ _ Ne') as C;
      pose proof (hue_sin _ _ _ Ne') as S; pose proof (hue_d _ _ _ Ne') as (P & _).
    pose proof (hue_180 _ _ _ Ne') as Hs.
    rewrite (rgb2hsv_value _ _ _ Ne); unfold angle_of in *; cbv zeta in *.
    set (t := acos _) in *; set (d := sqrt (_ + _)) in *.
    assert (D180 : (t * (180 / PI) * PI / 180 = t)%R) by (field; lra).
    assert (B : (0 <= t * (180 / PI) <= 180)%R).
    { split; [apply Rmult_le_pos; [lra | apply Rlt_le, Rdiv_lt_0_compat; lra]|].
      apply (Rmult_le_reg_r (PI / 180)); [lra|]; replace (t * (180 / PI) * (PI / 180))%R with t by (field; lra); lra. }
    eexists; exists (sat_of r g b); split; [reflexivity|].
    destruct (Z.leb_spec b g) as [L|L].
    + apply IZR_le in L; rewrite Rabs_right in S by lra.
      split; [lra|]; split; auto; split; [lra|]; exists d; unfold direction; rewrite D180; split; [split; lra|]; split; [auto|lia].
    + apply IZR_lt in L; rewrite Rabs_left in S by lra; specialize (Hs ltac:(lra)).
      assert (0 < t * (180 / PI))%R by (apply Rmult_lt_0_compat; [lra | apply Rdiv_lt_0_compat; lra]).
      split; [lra|]; split; auto; split; [lra|]; exists d; unfold direction.
      replace ((360 - t * (180 / PI)) * PI / 180)%R with (- t + 2 * INR 1 * PI)%R by (cbn [INR]; field; lra).
      rewrite cos_period, sin_period, cos_neg, sin_neg; split; [split; lra|]; split; [auto|lia].
Qed.
Print Assumptions C100_hsv.

(** The colour of a hue on the hexagonal cone: n = 5 for red, 3 for green, 1 for blue. *)
Definition hexcone (n : R) (H S V : R) : R :=
  let k := (n + H / 60 - 6 * IZR (Int_part ((n + H / 60) / 6)))%R in
  (V - V * S * Rmax 0 (Rmin (Rmin k (4 - k)) 1))%R.

Lemma hexcone_low n H S V : (0 <= n + H / 60 < 6)%R ->
  hexcone n H S V = (let k := n + H / 60 in V - V * S * Rmax 0 (Rmin (Rmin k (4 - k)) 1))%R.
Proof. intros B; unfold hexcone; rewrite (Int_part_unique _ 0) by lra; cbv zeta; rewrite Rmult_0_r, Rminus_0_r; auto. Qed.
Lemma hexcone_high n H S V : (6 <= n + H / 60 < 12)%R ->
  hexcone n H S V = (let k := n + H / 60 - 6 in V - V * S * Rmax 0 (Rmin (Rmin k (4 - k)) 1))%R.
Proof. intros B; unfold hexcone; rewrite (Int_part_unique _ 1) by lra; cbv zeta; rewrite Rmult_1_r; auto. Qed.

Ltac hexcone_weight w :=
  match goal with |- _ = (_ - _ * ?m)%R => replace m with w;
    [ring | unfold Rmax, Rmin; repeat match goal with |- context [Rle_dec ?a ?b] =>
       lazymatch a with context [Rle_dec _ _] => fail | _ => lazymatch b with context [Rle_dec _ _] => fail | _ => destruct (Rle_dec a b) end end
     end; lra] end.

Theorem C100_rgb : forall H S V, (0 <= H < 360)%R -> (0 <= S <= 1)%R -> (0 <= V < 256)%R ->
  hsv2rgb [H; S; V] = Ok [Int_part (hexcone 5 H S V); Int_part (hexcone 3 H S V); Int_part (hexcone 1 H S V)].
Proof.
  intros H S V HH HS HV; set (k := Int_part (H / 60)).
  pose proof (Int_part_bounds (H / 60)) as B; fold k in B.
  assert (Hk : (0 <= k < 6)%Z).
  { split; [assert (-1 < k)%Z; [apply lt_IZR; lra|lia] | apply lt_IZR; lra]. }
  pose proof (hsv2rgb_sector k H S V Hk ltac:(lra) HS HV) as E; cbv zeta in E; rewrite E; clear E.
  assert (C : (k = 0 \/ k = 1 \/ k = 2 \/ k = 3 \/ k = 4 \/ k = 5)%Z) by lia.
  set (x := (H / 60)%R) in *; clearbody k.
  destruct C as [->|[->|[->|[->|[->| ->]]]]]; cbn [sector];
  match goal with |- Ok [?a; ?b; ?c] = Ok [?a'; ?b'; ?c'] => cut (a = a' /\ b = b' /\ c = c'); [intros (-> & -> & ->); auto | split; [|split]] end;
  apply f_equal;
  ((rewrite hexcone_low by (fold x; lra)) || (rewrite hexcone_high by (fold x; lra))); cbv zeta; fold x;
  clearbody x;
  first [hexcone_weight 0%R | hexcone_weight 1%R | hexcone_weight (x - 1)%R | hexcone_weight (1 - (x - 0))%R
        | hexcone_weight (x - 3)%R | hexcone_weight (1 - (x - 2))%R | hexcone_weight (x - 5)%R | hexcone_weight (1 - (x - 4))%R].
Qed.
Print Assumptions C100_rgb.

(** the channels [c] of a colour and [c'] of another whose largest and smallest channels are M and m *)
Definition keeps (vmax vmin M m c c' : Z) : Prop := (m <= c' <= M /\ (c = vmax -> c' = M) /\ (c = vmin -> c' = m))%Z.

Lemma scaled_colour : forall r g b times, channel r -> channel g -> channel b ->
  let vmax := Z.max r (Z.max g b) in let vmin := Z.min r (Z.min g b) in
  (0 <= times)%R -> (IZR vmax * times < 256)%R ->
  exists h s r' g' b', rgb2hsv [r; g; b] = Ok [h; s; IZR vmax] /\ hsv2rgb [h; s; (IZR vmax * times)%R] = Ok [r'; g'; b'] /\
    let M := Int_part (IZR vmax * times) in let m := Int_part (IZR vmin * times) in
    keeps vmax vmin M m r r' /\ keeps vmax vmin M m g g' /\ keeps vmax vmin M m b b'.
Proof.
  intros r g b times (Hr & Hr') (Hg & Hg') (Hb & Hb'); cbv zeta; intros Ht HM.
  pose proof (sat_of_spec r g b Hr Hg Hb) as (Sr & Se).
  set (vmax := Z.max r (Z.max g b)) in *; set (vmin := Z.min r (Z.min g b)) in *.
  set (M := Int_part (IZR vmax * times)); set (m := Int_part (IZR vmin * times)).
  assert (V0 : (0 <= IZR vmin <= IZR vmax)%R) by (split; apply IZR_le; lia).
  assert (mM : (m <= M)%Z).
  { unfold m, M; apply Int_part_le, Rmult_le_compat_r; [exact Ht | apply V0]. }
  assert (SO : forall k H, (0 <= k < 6)%Z -> (60 * IZR k <= H < 60 * (IZR k + 1))%R ->
    exists q t, (m <= q <= M)%Z /\ (m <= t <= M)%Z /\ (H = 60 * IZR k -> q = M /\ t = m)%R /\
      hsv2rgb [H; sat_of r g b; (IZR vmax * times)%R] = Ok (sectorZ k M q t m)).
  { intros k H Hk HH; assert (Em : m = Int_part (IZR vmax * times * (1 - sat_of r g b))) by (unfold m; f_equal; rewrite <- Se; ring).
    rewrite Em; apply sector_out; auto; nra. }
  clear Se Sr; pose proof PI_RGT_0 as PP.
  destruct (Z.eq_dec r g) as [Erg|Erg]; [destruct (Z.eq_dec g b) as [Egb|Egb]|].
  { subst g b; exists 0%R, (sat_of r r r); rewrite rgb2hsv_gray.
    destruct (SO 0%Z 0%R ltac:(lia) ltac:(lra)) as (q & t & Bq & Bt & _ & E).
    assert (vmax = r) as EM by lia; assert (vmin = r) as Em by lia.
    assert (M = m) as E' by (unfold M, m; rewrite EM, Em; auto).
    assert (t = m) as -> by lia; rewrite E; exists M, m, m; split; [rewrite EM; reflexivity|]; cbn [sectorZ].
    split; [reflexivity|]; unfold keeps; repeat split; lia. }
  all: assert (Ne : ~ (r = g /\ g = b)) by lia.
  all: assert (Ne' : ~ (IZR r = IZR g /\ IZR g = IZR b)) by (intros (H1 & H2); apply eq_IZR in H1, H2; auto).
  all: pose proof (hue_range (IZR r) (IZR g) (IZR b)) as Rg; rewrite (rgb2hsv_value _ _ _ Ne); cbv zeta.
  all: pose proof (hue_180 _ _ _ Ne') as H180.
  all: pose proof (degrees_lt (angle_of (IZR r) (IZR g) (IZR b))) as DL;
       pose proof (degrees (angle_of (IZR r) (IZR g) (IZR b))) as DG.
  all: fold (angle_of (IZR r) (IZR g) (IZR b)) in Rg, H180; set (t := angle_of (IZR r) (IZR g) (IZR b)) in *.
  - subst g; destruct (Z.leb_spec b r) as [L|L].
    + assert (T : t = (PI / 3)%R) by (apply hue_60; auto; left; split; auto; apply IZR_lt; lia).
      destruct (SO 1%Z (t * (180 / PI))%R ltac:(lia)) as (q & u & Bq & Bu & Z & E).
      { rewrite T; replace (PI / 3)%R with (1 * (PI / 3))%R by ring; rewrite degrees_eq; lra. }
      destruct Z as (-> & ->); [rewrite T; replace (PI / 3)%R with (1 * (PI / 3))%R by ring; rewrite degrees_eq; lra|].
      do 5 eexists; split; [reflexivity|]; rewrite E; cbn [sectorZ]; split; [reflexivity|]; unfold keeps; repeat split; lia.
    + assert (T : t = (2 * (PI / 3))%R) by (apply hue_120; auto; left; split; auto; apply IZR_lt; lia).
      destruct (SO 4%Z (360 - t * (180 / PI))%R ltac:(lia)) as (q & u & Bq & Bu & Z & E); [rewrite T, degrees_eq; lra|].
      destruct Z as (-> & ->); [rewrite T, degrees_eq; lra|].
      do 5 eexists; split; [reflexivity|]; rewrite E; cbn [sectorZ]; split; [reflexivity|]; unfold keeps; repeat split; lia.
  - destruct (Z.leb_spec b g) as [L|L].
    + destruct (Z_lt_le_dec g r) as [G|G].
      * (* red is the largest *)
        assert (T : (t < PI / 3)%R) by (apply hue_0_60; auto; apply IZR_lt; lia).
        destruct (SO 0%Z (t * (180 / PI))%R ltac:(lia)) as (q & u & Bq & Bu & Z & E).
        { split; [apply DG; lra | replace (60 * (0 + 1))%R with (60 * 1)%R by ring; apply DL; lra]. }
        do 5 eexists; split; [reflexivity|]; rewrite E; cbn [sectorZ]; split; [reflexivity|].
        destruct (Z.eq_dec g b) as [Egb|Egb]; [|unfold keeps; repeat split; lia].
        destruct Z as (-> & ->); [|unfold keeps; repeat split; lia].
        assert (t = 0%R) as -> by (apply hue_0_eq; auto; [f_equal; auto | apply IZR_lt; lia]); lra.
      * assert (G' : (r < g)%Z) by lia; apply IZR_lt in G'.
        destruct (Z_lt_le_dec b r) as [B|B]; [|destruct (Z.eq_dec r b) as [Erb|Erb]].
        -- apply IZR_lt in B as B'; assert (T : (PI / 3 < t < 2 * (PI / 3))%R) by (apply hue_60_120; auto; nra).
           destruct (SO 1%Z (t * (180 / PI))%R ltac:(lia)) as (q & u & Bq & Bu & Z & E).
           { split; [apply DG; lra | replace (60 * (1 + 1))%R with (60 * 2)%R by ring; apply DL; lra]. }
           do 5 eexists; split; [reflexivity|]; rewrite E; cbn [sectorZ]; split; [reflexivity|]; unfold keeps; repeat split; lia.
        -- assert (T : t = (2 * (PI / 3))%R) by (apply hue_120; auto; right; split; auto; f_equal; auto).
           destruct (SO 2%Z (t * (180 / PI))%R ltac:(lia)) as (q & u & Bq & Bu & Z & E); [rewrite T, degrees_eq; lra|].
           destruct Z as (-> & ->); [rewrite T, degrees_eq; lra|].
           do 5 eexists; split; [reflexivity|]; rewrite E; cbn [sectorZ]; split; [reflexivity|]; unfold keeps; repeat split; lia.
        -- assert (B' : (r < b)%Z) by lia; apply IZR_lt in B'.
           assert (T : (2 * (PI / 3) < t)%R) by (apply hue_120_180; auto).
           destruct (Z.eq_dec g b) as [Egb|Egb].
           ++ assert (T' : t = PI) by (apply hue_180_eq; auto; f_equal; auto).
              replace PI with (3 * (PI / 3))%R in T' by field.
              destruct (SO 3%Z (t * (180 / PI))%R ltac:(lia)) as (q & u & Bq & Bu & Z & E); [rewrite T', degrees_eq; lra|].
              destruct Z as (-> & ->); [rewrite T', degrees_eq; lra|].
              do 5 eexists; split; [reflexivity|]; rewrite E; cbn [sectorZ]; split; [reflexivity|]; unfold keeps; repeat split; lia.
           ++ destruct H180 as (_ & T'); [intros Q; apply eq_IZR in Q; auto|].
              destruct (SO 2%Z (t * (180 / PI))%R ltac:(lia)) as (q & u & Bq & Bu & Z & E).
              { split; [apply DG; lra | replace (60 * (2 + 1))%R with (60 * 3)%R by ring; apply DL; lra]. }
              do 5 eexists; split; [reflexivity|]; rewrite E; cbn [sectorZ]; split; [reflexivity|]; unfold keeps; repeat split; lia.
    + destruct H180 as (T0 & T1); [intros Q; apply eq_IZR in Q; lia|]; apply IZR_lt in L as L'.
      destruct (Z_lt_le_dec b r) as [B|B]; [|destruct (Z.eq_dec r b) as [Erb|Erb]; [|destruct (Z_lt_le_dec g r) as [G|G]]].
      * apply IZR_lt in B as B'; assert (T : (t < PI / 3)%R) by (apply hue_0_60; auto; lra).
        destruct (SO 5%Z (360 - t * (180 / PI))%R ltac:(lia)) as (q & u & Bq & Bu & Z & E).
        { pose proof (proj2 (DL 1%R) ltac:(lra)); assert (0 < t * (180 / PI))%R by (apply Rmult_lt_0_compat; [lra | apply Rdiv_lt_0_compat; lra]); lra. }
        do 5 eexists; split; [reflexivity|]; rewrite E; cbn [sectorZ]; split; [reflexivity|]; unfold keeps; repeat split; lia.
      * assert (T : t = (1 * (PI / 3))%R) by (rewrite Rmult_1_l; apply hue_60; auto; right; split; [f_equal; auto | rewrite Erb; auto]).
        destruct (SO 5%Z (360 - t * (180 / PI))%R ltac:(lia)) as (q & u & Bq & Bu & Z & E); [rewrite T, degrees_eq; lra|].
        destruct Z as (-> & ->); [rewrite T, degrees_eq; lra|].
        do 5 eexists; split; [reflexivity|]; rewrite E; cbn [sectorZ]; split; [reflexivity|]; unfold keeps; repeat split; lia.
      * apply IZR_lt in G as G'; assert (B' : (r < b)%Z) by lia; apply IZR_lt in B'.
        assert (T : (PI / 3 < t < 2 * (PI / 3))%R) by (apply hue_60_120; auto; nra).
        destruct (SO 4%Z (360 - t * (180 / PI))%R ltac:(lia)) as (q & u & Bq & Bu & Z & E).
        { pose proof (proj2 (DL 2%R) ltac:(lra)); pose proof (proj2 (DL 1%R)); assert (60 < t * (180 / PI))%R; [|lra].
          apply Rnot_le_lt; intros Q; apply (Rmult_le_compat_r (PI / 180)) in Q; [|lra].
          replace (t * (180 / PI) * (PI / 180))%R with t in Q by (field; lra); lra. }
        do 5 eexists; split; [reflexivity|]; rewrite E; cbn [sectorZ]; split; [reflexivity|]; unfold keeps; repeat split; lia.
      * assert (G' : (r < g)%Z) by lia; apply IZR_lt in G'.
        assert (T : (2 * (PI / 3) < t)%R) by (apply hue_120_180; auto; lra).
        destruct (SO 3%Z (360 - t * (180 / PI))%R ltac:(lia)) as (q & u & Bq & Bu & Z & E).
        { pose proof (proj2 (DL 3%R) ltac:(lra)); assert (120 < t * (180 / PI))%R; [|lra].
          apply Rnot_le_lt; intros Q; apply (Rmult_le_compat_r (PI / 180)) in Q; [|lra].
          replace (t * (180 / PI) * (PI / 180))%R with t in Q by (field; lra); lra. }
        do 5 eexists; split; [reflexivity|]; rewrite E; cbn [sectorZ]; split; [reflexivity|]; unfold keeps; repeat split; lia.
Qed.

(** Whatever the colour, the largest and the smallest channels come back; only a channel strictly between them can change,
    and stays between them. *)
Theorem C100_round_trip_partial : forall r g b, channel r -> channel g -> channel b ->
  let vmax := Z.max r (Z.max g b) in let vmin := Z.min r (Z.min g b) in
  exists r' g' b', (let* p := rgb2hsv [r; g; b] in hsv2rgb p) = Ok [r'; g'; b'] /\
    keeps vmax vmin vmax vmin r r' /\ keeps vmax vmin vmax vmin g g' /\ keeps vmax vmin vmax vmin b b'.
Proof.
  intros r g b Hr Hg Hb; cbv zeta.
  destruct (scaled_colour r g b 1 Hr Hg Hb ltac:(lra)) as (h & s & r' & g' & b' & E & E' & K).
  { rewrite Rmult_1_r; apply (IZR_lt _ 256); unfold channel in *; lia. }
  rewrite !Rmult_1_r, !Int_part_IZR in *; cbv zeta in K.
  exists r', g', b'; rewrite E; cbn [bind]; auto.
Qed.
Print Assumptions C100_round_trip_partial.

Lemma keeps_end vmax vmin c c' : keeps vmax vmin vmax vmin c c' -> c = vmax \/ c = vmin -> c' = c.
Proof. intros (_ & H1 & H2) [H|H]; rewrite H; auto. Qed.

(** greys, and colours in which every channel is the largest or the smallest, come back exactly *)
Theorem C100_restored : forall r g b, channel r -> channel g -> channel b -> (r = g \/ g = b \/ b = r)%Z ->
  (let* p := rgb2hsv [r; g; b] in hsv2rgb p) = Ok [r; g; b].
Proof.
  intros r g b Hr Hg Hb H; destruct (C100_round_trip_partial r g b Hr Hg Hb) as (r' & g' & b' & E & K); rewrite E.
  destruct K as (Kr & Kg & Kb); cbv zeta in *; apply keeps_end in Kr; [|lia]; apply keeps_end in Kg; [|lia]; apply keeps_end in Kb; [|lia].
  congruence.
Qed.
Print Assumptions C100_restored.

(** an orange: the green channel 64 comes back smaller *)
Theorem C100_refuted : exists r g b, channel r /\ channel g /\ channel b /\
  (let* p := rgb2hsv [r; g; b] in hsv2rgb p) <> Ok [r; g; b].
Proof.
  exists 255%Z, 64%Z, 0%Z; do 3 (split; [unfold channel; lia|]).
  rewrite rgb2hsv_value by lia; cbn [bind]; cbv zeta; replace (0 <=? 64)%Z with true by reflexivity.
  pose proof PI_RGT_0 as PP.
  assert (Ne : ~ (IZR 255 = IZR 64 /\ IZR 64 = IZR 0)) by lra.
  pose proof (hue_range 255 64 0) as Rg; pose proof (hue_cos _ _ _ Ne) as C; pose proof (hue_d _ _ _ Ne) as (P & D).
  pose proof (hue_0_60 _ _ _ Ne ltac:(lra) ltac:(lra)) as T.
  assert (L : (angle_of 255 64 0 < / 4 * (PI / 3))%R).
  { unfold angle_of in *; set (t := acos _) in *; set (d := sqrt _) in *; clearbody t d.
    assert (C2 : (cos (PI / 6) < cos (2 * t))%R).
    { rewrite cos_2a_cos, cos_PI6.
      assert (S3 : (sqrt 3 < 7 / 4)%R).
      { apply Rsqr_incrst_0; try (apply sqrt_pos); try lra; unfold Rsqr; rewrite sqrt_sqrt; lra. }
      assert (CC : ((d * cos t) * (d * cos t) = 49729)%R) by (rewrite C; field).
      assert (DD : (d * d = 52801)%R) by (rewrite D; ring).
      assert (Q : (cos t * cos t * 52801 = 49729)%R) by (rewrite <- DD, <- CC; ring).
      lra. }
    apply cos_decreasing_0 in C2; lra. }
  assert (Hh : (0 <= angle_of 255 64 0 * (180 / PI) < 60 * / 4)%R).
  { split; [|apply degrees_lt; auto]; apply Rmult_le_pos; [apply Rg | apply Rlt_le, Rdiv_lt_0_compat; lra]. }
  set (h := (angle_of 255 64 0 * (180 / PI))%R) in *; clearbody h; clear - Hh.
  assert (S1 : sat_of 255 64 0 = 1%R) by (unfold sat_of; cbn -[IZR]; lra); rewrite S1.
  replace (Z.max 255 (Z.max 64 0)) with 255%Z by reflexivity.
  pose proof (hsv2rgb_sector 0 h 1 255 ltac:(lia) ltac:(lra) ltac:(lra) ltac:(lra)) as E; cbn [sector] in E; cbv zeta in E.
  rewrite E; intros Q; injection Q as _ Q _.
  assert (B := Int_part_bounds (255 * (1 - (1 - (h / 60 - 0)) * 1))); rewrite Q in B; lra.
Qed.
Print Assumptions C100_refuted.

(** a hue of 360 degrees or more gives black *)
Theorem C100_hue_360 : forall H S V, (360 <= H < 15360)%R -> hsv2rgb [H; S; V] = Ok [0; 0; 0]%Z.
Proof.
  intros H S V HH; unfold hsv2rgb; cbn [vget nth_error bind]; set (k := Int_part (H / 60)).
  pose proof (Int_part_bounds (H / 60)) as B; fold k in B.
  assert (Hk : (6 <= k < 256)%Z).
  { split; [assert (5 < k)%Z; [apply lt_IZR; lra|lia] | apply lt_IZR; lra]. }
  rewrite to_u8_IZR by lia; cbn [bind]; cbv zeta; clearbody k; clear B.
  repeat match goal with |- context [(k =? ?n)%Z] => destruct (Z.eqb_spec k n); [lia|] end; auto.
Qed.
Print Assumptions C100_hue_360.

(** so a full turn of the hue does not give the same colour *)
Theorem C100_turn_refuted : exists H S V, (0 <= H < 360)%R /\ (0 <= S <= 1)%R /\ (0 <= V < 256)%R /\
  hsv2rgb [H; S; V] <> hsv2rgb [(H + 360)%R; S; V].
Proof.
  exists 0%R, 1%R, 255%R; do 3 (split; [lra|]); rewrite (C100_hue_360 (0 + 360)) by lra.
  pose proof (hsv2rgb_sector 0 0 1 255 ltac:(lia) ltac:(lra) ltac:(lra) ltac:(lra)) as E; cbn [sector] in E; cbv zeta in E.
  rewrite E, (Int_part_IZR 255); intros Q; injection Q as Q; discriminate.
Qed.
Print Assumptions C100_turn_refuted.

(** a value of 256 or more is undefined *)
Theorem C100_value_undefined : forall H S V, (0 <= H < 360)%R -> (0 <= S <= 1)%R -> (256 <= V)%R -> hsv2rgb [H; S; V] = UB.
Proof.
  intros H S V HH HS HV; unfold hsv2rgb; cbn [vget nth_error bind]; set (k := Int_part (H / 60)).
  pose proof (Int_part_bounds (H / 60)) as B; fold k in B.
  assert (Hk : (0 <= k < 6)%Z).
  { split; [assert (-1 < k)%Z; [apply lt_IZR; lra|lia] | apply lt_IZR; lra]. }
  rewrite to_u8_IZR by lia; cbn [bind].
  assert (U : to_u8 V = UB) by (unfold to_u8; rewrite (proj2 (rleb_spec 256 V)) by lra; rewrite orb_true_r; auto).
  assert (N : forall r, (exists z, to_u8 r = Ok z) \/ to_u8 r = UB) by (intros r; unfold to_u8; destruct (_ || _); eauto).
  cbv zeta; rewrite U; generalize (V * (1 - S))%R, (V * (1 - (H / 60 - IZR k) * S))%R, (V * (1 - (1 - (H / 60 - IZR k)) * S))%R.
  intros m q t; destruct (N m) as [(zm & ->)| ->], (N q) as [(zq & ->)| ->], (N t) as [(zt & ->)| ->]; cbn [bind];
    assert (C : (k = 0 \/ k = 1 \/ k = 2 \/ k = 3 \/ k = 4 \/ k = 5)%Z) by lia;
    destruct C as [E|[E|[E|[E|[E|E]]]]]; rewrite E; reflexivity.
Qed.
Print Assumptions C100_value_undefined.

(** images of any dimensionality, pixel by pixel *)
Definition rgb_pixel (p : list Z) : Prop := exists r g b, p = [r; g; b] /\ channel r /\ channel g /\ channel b.

Theorem C100_image : forall im ds f, ReprN im ds f -> 0 < prodn ds -> (forall i, in_range ds i -> rgb_pixel (f i)) ->
  exists o g, rgb2hsv_image im = Ok o /\ ReprN o ds g /\ (forall i, in_range ds i -> rgb2hsv (f i) = Ok (g i)) /\
    exists o' f', hsv2rgb_image o = Ok o' /\ ReprN o' ds f' /\ (forall i, in_range ds i -> hsv2rgb (g i) = Ok (f' i)).
Proof.
  intros im ds f Ri Hp Hc.
  set (g := fun i => match rgb2hsv (f i) with Ok p => p | _ => [] end).
  assert (Hg : forall i, in_range ds i -> rgb2hsv (f i) = Ok (g i) /\ exists p, hsv2rgb (g i) = Ok p).
  { intros i Hi; destruct (Hc i Hi) as (r & v & b & E & Cr & Cg & Cb); unfold g; rewrite E.
    destruct (C100_round_trip_partial r v b Cr Cg Cb) as (r' & g' & b' & E' & _).
    destruct (rgb2hsv [r; v; b]); cbn [bind] in E'; [split; eauto | discriminate | discriminate]. }
  destruct (pixelwiseM_ReprN rgb2hsv im ds f g Ri Hp ltac:(apply Hg)) as (o & Eo & Ro).
  exists o, g; split; auto; split; auto; split; [apply Hg|].
  destruct (pixelwiseM_ReprN hsv2rgb o ds g (fun i => match hsv2rgb (g i) with Ok p => p | _ => [] end) Ro Hp) as (o' & Eo' & Ro').
  { intros i Hi; destruct (proj2 (Hg i Hi)) as (p & ->); auto. }
  eexists _, _; split; [exact Eo'|]; split; [exact Ro'|].
  intros i Hi; destruct (proj2 (Hg i Hi)) as (p & ->); auto.
Qed.
Print Assumptions C100_image.

Example C100_case : (let* p := rgb2hsv [255; 64; 64]%Z in hsv2rgb p) = Ok [255; 64; 64]%Z /\ channel 255 /\ channel 64.
Proof. split; [apply C100_restored; unfold channel; lia | unfold channel; lia]. Qed.

(** ** C101: false colours *)
(** the colour of a grey level, in whole numbers: the hue in 256ths of 60 degrees is 6 g *)
Definition false_colour (g : Z) : list Z :=
  let k := (6 * g / 256)%Z in let f := (6 * g mod 256)%Z in
  sectorZ k 255 (255 * (256 - f) / 256) (255 * f / 256) 0.

Theorem C101_value : forall g, channel g -> grayscale2rgb g = Ok (false_colour g).
Proof.
  intros g (H0 & H1); unfold grayscale2rgb, false_colour; cbv zeta.
  set (k := (6 * g / 256)%Z); set (f := (6 * g mod 256)%Z).
  assert (E : (6 * g = 256 * k + f)%Z) by (apply Z.div_mod; lia).
  assert (Hf : (0 <= f < 256)%Z) by (apply Z.mod_pos_bound; lia).
  assert (Hk : (0 <= k < 6)%Z) by lia.
  clearbody k f; apply (f_equal IZR) in E; rewrite plus_IZR, !mult_IZR in E.
  assert (Rf : (0 <= IZR f < 256)%R) by (split; [apply IZR_le | apply (IZR_lt f 256)]; lia).
  pose proof (hsv2rgb_sector k (IZR g / 256 * 360) 1 255 Hk ltac:(lra) ltac:(lra) ltac:(lra)) as HS; cbv zeta in HS.
  rewrite HS; clear HS.
  assert (D : forall a, (0 <= a)%Z -> Int_part (IZR a / 256) = (a / 256)%Z).
  { intros a Ha; apply Int_part_unique.
    pose proof (Z.div_mod a 256 ltac:(lia)) as DM; pose proof (Z.mod_pos_bound a 256 ltac:(lia)) as MB.
    set (u := (a / 256)%Z) in *; set (v := (a mod 256)%Z) in *; clearbody u v.
    apply (f_equal IZR) in DM; rewrite plus_IZR, mult_IZR in DM; destruct MB as (M0 & M1); apply IZR_le in M0; apply IZR_lt in M1; lra. }
  replace (255 * (1 - (IZR g / 256 * 360 / 60 - IZR k) * 1))%R with (IZR (255 * (256 - f)) / 256)%R
    by (rewrite mult_IZR, minus_IZR; lra).
  replace (255 * (1 - (1 - (IZR g / 256 * 360 / 60 - IZR k)) * 1))%R with (IZR (255 * f) / 256)%R by (rewrite mult_IZR; lra).
  replace (255 * (1 - 1))%R with (IZR 0) by lra.
  assert (C : (k = 0 \/ k = 1 \/ k = 2 \/ k = 3 \/ k = 4 \/ k = 5)%Z) by lia.
  destruct C as [->|[->|[->|[->|[->| ->]]]]]; cbn [sector sectorZ]; rewrite ?D by lia; rewrite (Int_part_IZR 255), (Int_part_IZR 0); auto.
Qed.
Print Assumptions C101_value.

(** different grey levels get different colours *)
Theorem C101_injective : forall g g', channel g -> channel g' -> grayscale2rgb g = grayscale2rgb g' -> g = g'.
Proof.
  intros g g' Hg Hg'; rewrite !C101_value by auto; intros E; injection E as E.
  assert (A : forallb (fun a => forallb (fun b => (a =? b) || negb (if list_eq_dec Z.eq_dec (false_colour (Z.of_nat a)) (false_colour (Z.of_nat b)) then true else false)) (seq 0 256)) (seq 0 256) = true)
    by (vm_compute; reflexivity).
  unfold channel in *; rewrite forallb_forall in A; specialize (A (Z.to_nat g) ltac:(apply in_seq; lia)).
  rewrite forallb_forall in A; specialize (A (Z.to_nat g') ltac:(apply in_seq; lia)).
  rewrite !Z2Nat.id in A by lia; destruct (list_eq_dec _ _ _) as [_|N]; [|contradiction].
  rewrite orb_false_r in A; apply Nat.eqb_eq in A; lia.
Qed.
Print Assumptions C101_injective.

(** every such colour is pure: some channel is 255, some channel is 0 *)
Theorem C101_pure : forall g, channel g ->
  exists r v b, grayscale2rgb g = Ok [r; v; b] /\ channel r /\ channel v /\ channel b /\ Z.max r (Z.max v b) = 255%Z /\ Z.min r (Z.min v b) = 0%Z.
Proof.
  intros g Hg; rewrite C101_value by auto; destruct Hg as (H0 & H1); unfold false_colour; cbv zeta.
  set (k := (6 * g / 256)%Z); set (f := (6 * g mod 256)%Z).
  assert (E : (6 * g = 256 * k + f)%Z) by (apply Z.div_mod; lia).
  assert (Hf : (0 <= f < 256)%Z) by (apply Z.mod_pos_bound; lia).
  assert (Hk : (0 <= k < 6)%Z) by lia.
  assert (Q : (0 <= 255 * (256 - f) / 256 <= 255)%Z) by (split; [apply Z.div_pos; lia | apply Z.div_le_upper_bound; lia]).
  assert (T : (0 <= 255 * f / 256 <= 255)%Z) by (split; [apply Z.div_pos; lia | apply Z.div_le_upper_bound; lia]).
  set (q := (255 * (256 - f) / 256)%Z) in *; set (t := (255 * f / 256)%Z) in *; clearbody q t k f.
  assert (C : (k = 0 \/ k = 1 \/ k = 2 \/ k = 3 \/ k = 4 \/ k = 5)%Z) by lia.
  destruct C as [->|[->|[->|[->|[->| ->]]]]]; cbn [sectorZ]; do 3 eexists; (split; [reflexivity|]); unfold channel; lia.
Qed.
Print Assumptions C101_pure.

Theorem C101_image : forall im ds f, ReprN im ds f -> 0 < prodn ds -> (forall i, in_range ds i -> channel (f i)) ->
  exists o, grayscale2rgb_image im = Ok o /\ ReprN o ds (fun i => false_colour (f i)).
Proof. intros im ds f Ri Hp Hc; apply (pixelwiseM_ReprN _ _ _ f); auto; intros i Hi; apply C101_value; auto. Qed.
Print Assumptions C101_image.

(** grey images with the same false colours are the same *)
Theorem C101_image_injective : forall a b ds f g, ReprN a ds f -> ReprN b ds g -> 0 < prodn ds ->
  (forall i, in_range ds i -> channel (f i) /\ channel (g i)) -> grayscale2rgb_image a = grayscale2rgb_image b -> a = b.
Proof.
  intros a b ds f g Ra Rb Hp Hc E.
  destruct (C101_image a ds f Ra Hp ltac:(apply Hc)) as (oa & Ea & Roa).
  destruct (C101_image b ds g Rb Hp ltac:(apply Hc)) as (ob & Eb & Rob).
  rewrite Ea, Eb in E; injection E as ->.
  apply (ReprN_unique a b ds f g); auto; intros i Hi; destruct (Hc i Hi) as (Ca & Cb).
  apply C101_injective; [exact Ca | exact Cb|]; rewrite (C101_value _ Ca), (C101_value _ Cb); apply (f_equal Ok).
  pose proof (at_ReprN _ _ _ i Roa Hi) as A1; pose proof (at_ReprN _ _ _ i Rob Hi) as A2; cbv beta in *; congruence.
Qed.
Print Assumptions C101_image_injective.

Example C101_case : map false_colour [0; 43; 128; 255]%Z = [[255; 0; 0]; [253; 255; 0]; [0; 255; 255]; [255; 0; 5]]%Z /\ channel 43.
Proof. split; [vm_compute; reflexivity | unfold channel; lia]. Qed.

(** ** C102: brightening *)
(** The result of multiplying the value: the largest channel is multiplied by [times], and so is the smallest. *)
Definition brightened (times : R) (p p' : list Z) : Prop :=
  exists r g b r' g' b', p = [r; g; b] /\ p' = [r'; g'; b'] /\
    let vmax := Z.max r (Z.max g b) in let vmin := Z.min r (Z.min g b) in
    let M := Int_part (IZR vmax * times) in let m := Int_part (IZR vmin * times) in
    keeps vmax vmin M m r r' /\ keeps vmax vmin M m g g' /\ keeps vmax vmin M m b b'.
Definition largest (p : list Z) : Z := fold_right Z.max 0%Z p.

Lemma brighten_planes d times im ds f : ReprN im ds f -> 0 < prodn ds -> (forall i, in_range ds i -> rgb_pixel (f i)) ->
  exists h s, (forall i, in_range ds i -> rgb2hsv (f i) = Ok [h i; s i; IZR (largest (f i))] /\ (0 <= h i < 360)%R /\ (0 <= s i <= 1)%R) /\
  exists o, ReprN o ds (fun i => [h i; s i; (IZR (largest (f i)) * times)%R]) /\ increase_intensity d times im = hsv2rgb_image o.
Proof.
  intros Ri Hp Hc.
  set (p := fun i => match rgb2hsv (f i) with Ok p => p | _ => [] end).
  assert (P : forall i, in_range ds i -> rgb2hsv (f i) = Ok (p i) /\ exists h s, p i = [h; s; IZR (largest (f i))] /\ (0 <= h < 360)%R /\ (0 <= s <= 1)%R).
  { intros i Hi; destruct (Hc i Hi) as (r & v & b & E & Cr & Cg & Cb); unfold p; rewrite E.
    destruct (C100_hsv r v b Cr Cg Cb) as (h & s & E' & Hh & Hs & _); cbv zeta in *; rewrite E'; split; auto.
    exists h, s; replace (largest [r; v; b]) with (Z.max r (Z.max v b)) by (unfold channel, largest in *; cbn [fold_right]; lia); auto. }
  exists (fun i => nth 0 (p i) 0%R), (fun i => nth 1 (p i) 0%R); split.
  { intros i Hi; destruct (P i Hi) as (E & h & s & Ep & Hh & Hs); rewrite E, Ep; auto. }
  unfold increase_intensity, rgb2hsv_image.
  destruct (pixelwiseM_ReprN rgb2hsv im ds f p Ri Hp ltac:(apply P)) as (o & -> & Ro); cbn [bind].
  assert (G : forall k, k < 3 -> exists q, get_plane seq0 0%R o k = Ok q /\ ReprN q ds (fun i => nth k (p i) 0%R)).
  { intros k Hk; apply (get_plane_ReprN seq0 sched1_seq0 0%R o ds p k _ Ro Hp); intros i Hi; apply nth_error_nth'.
    destruct (P i Hi) as (_ & h & s & -> & _); cbn; lia. }
  destruct (G 0 ltac:(lia)) as (q0 & -> & R0); cbn [bind]; destruct (G 1 ltac:(lia)) as (q1 & -> & R1); cbn [bind];
    destruct (G 2 ltac:(lia)) as (q2 & -> & R2); cbn [bind].
  destruct (multiplies_scalar_ReprN Rmult 0%R times q2 ds _ R2 Hp) as (v & -> & Rv); cbn [bind].
  destruct (construct3_ReprN seq0 sched1_seq0 d q0 q1 v ds _ _ _ R0 R1 Rv Hp) as (c & -> & Rc); cbn [bind].
  exists c; split; auto; eapply ReprN_ext; [exact Rc|]; intros i Hi; cbv beta.
  destruct (P i Hi) as (_ & h & s & -> & _); auto.
Qed.

Theorem C102_brightened : forall d times im ds f, ReprN im ds f -> 0 < prodn ds -> (forall i, in_range ds i -> rgb_pixel (f i)) ->
  (0 <= times)%R -> (forall i, in_range ds i -> (IZR (largest (f i)) * times < 256)%R) ->
  exists o f', increase_intensity d times im = Ok o /\ ReprN o ds f' /\ forall i, in_range ds i -> brightened times (f i) (f' i).
Proof.
  intros d times im ds f Ri Hp Hc Ht Hb.
  destruct (brighten_planes d times im ds f Ri Hp Hc) as (h & s & HS & o & Ro & ->).
  assert (Q : forall i, in_range ds i -> exists p', hsv2rgb [h i; s i; (IZR (largest (f i)) * times)%R] = Ok p' /\ brightened times (f i) p').
  { intros i Hi; specialize (Hb i Hi); destruct (HS i Hi) as (E & _); destruct (Hc i Hi) as (r & g & b & Ef & Cr & Cg & Cb).
    assert (EL : largest (f i) = Z.max r (Z.max g b)) by (rewrite Ef; unfold channel, largest in *; cbn [fold_right]; lia).
    rewrite EL, Ef in *.
    destruct (scaled_colour r g b times Cr Cg Cb Ht Hb) as (h' & s' & r' & g' & b' & E1 & E2 & K).
    rewrite E in E1; injection E1 as -> ->; exists [r'; g'; b']; split; auto; exists r, g, b, r', g', b'; auto. }
  set (f' := fun i => match hsv2rgb [h i; s i; (IZR (largest (f i)) * times)%R] with Ok p => p | _ => [] end).
  destruct (pixelwiseM_ReprN hsv2rgb o ds _ f' Ro Hp) as (o' & E & Ro').
  { intros i Hi; cbv beta; destruct (Q i Hi) as (p' & E & _); unfold f'; rewrite E; auto. }
  exists o', f'; split; auto; split; auto; intros i Hi; destruct (Q i Hi) as (p' & E' & B); unfold f'; rewrite E'; auto.
Qed.
Print Assumptions C102_brightened.

(** One pixel that would become too bright makes the call undefined: the value is not limited to 255. *)
Theorem C102_too_bright_undefined : forall d times im ds f, ReprN im ds f -> 0 < prodn ds -> (forall i, in_range ds i -> rgb_pixel (f i)) ->
  (0 <= times)%R -> (exists i, in_range ds i /\ (256 <= IZR (largest (f i)) * times)%R) -> increase_intensity d times im = UB.
Proof.
  intros d times im ds f Ri Hp Hc Ht (i & Hi & Hb).
  destruct (brighten_planes d times im ds f Ri Hp Hc) as (h & s & HS & o & Ro & ->).
  unfold hsv2rgb_image, pixelwiseM; rewrite mapM_UB; auto.
  - intros a Ha; apply In_nth_error in Ha; destruct Ha as (k & Hk).
    assert (L : k < prodn ds) by (rewrite <- (ReprN_length _ _ _ Ro); apply nth_error_Some; congruence).
    destruct (unoff_spec ds k L) as (IR & Ek); destruct Ro as (_ & _ & Ro); pose proof (Ro _ IR) as E; rewrite Ek, Hk in E; injection E as ->.
    destruct (HS _ IR) as (_ & Hh & Hs); set (V := (IZR (largest (f (unoff ds k))) * times)%R).
    destruct (Rlt_le_dec V 256) as [B|B]; [left | right; apply C100_value_undefined; auto].
    rewrite C100_rgb; eauto; split; auto; apply Rmult_le_pos; auto.
    destruct (Hc _ IR) as (r & g & b & -> & Cr & Cg & Cb); unfold channel, largest in *; cbn [fold_right]; apply IZR_le; lia.
  - eexists; split; [apply (nth_error_In _ _ (proj2 (proj2 Ro) i Hi))|]; destruct (HS i Hi) as (_ & Hh & Hs).
    apply C100_value_undefined; auto.
Qed.
Print Assumptions C102_too_bright_undefined.

Theorem C102_refuted : exists times im, (0 <= times)%R /\ wf im /\ Forall rgb_pixel (pix im) /\ increase_intensity [0; 0; 0]%R times im = UB.
Proof.
  exists 2%R, (mkImage [1; 1] [[200; 10; 10]%Z]); split; [lra|]; split; [reflexivity|].
  assert (P : rgb_pixel [200; 10; 10]%Z) by (exists 200%Z, 10%Z, 10%Z; split; auto; unfold channel; lia).
  split; [constructor; auto; constructor|].
  assert (RI : ReprN (mkImage [1; 1] [[200; 10; 10]%Z]) [1; 1] (fun _ => [200; 10; 10]%Z)).
  { split; auto; split; auto; intros idx HI; apply off_lt in HI; cbn [prodn fold_right Nat.mul Nat.add] in HI.
    destruct (off [1; 1] idx); [reflexivity | lia]. }
  apply (C102_too_bright_undefined _ _ _ _ _ RI); [cbn; lia | auto | lra|].
  exists [0; 0]; split; [apply in_range2; lia | cbn -[IZR]; lra].
Qed.
Print Assumptions C102_refuted.

Example C102_case : exists o f', increase_intensity [0; 0; 0]%R (3 / 2) (mkImage [1; 1] [[100; 10; 10]%Z]) = Ok o /\ ReprN o [1; 1] f' /\
  nth 0 (f' [0; 0]) 0%Z = 150%Z /\ nth 1 (f' [0; 0]) 0%Z = 15%Z.
Proof.
  assert (P : rgb_pixel [100; 10; 10]%Z) by (exists 100%Z, 10%Z, 10%Z; split; auto; unfold channel; lia).
  assert (RI : ReprN (mkImage [1; 1] [[100; 10; 10]%Z]) [1; 1] (fun _ => [100; 10; 10]%Z)).
  { split; auto; split; auto; intros idx HI; apply off_lt in HI; cbn [prodn fold_right Nat.mul Nat.add] in HI.
    destruct (off [1; 1] idx); [reflexivity | lia]. }
  destruct (C102_brightened [0; 0; 0]%R (3 / 2) _ _ _ RI ltac:(cbn; lia) ltac:(auto) ltac:(lra)) as (o & f' & E & Ro & B).
  { intros i Hi; cbn -[IZR]; lra. }
  exists o, f'; split; auto; split; auto.
  destruct (B [0; 0] ltac:(apply in_range2; lia)) as (r & g & b & r' & g' & b' & E1 & -> & K); injection E1 as <- <- <-; cbv zeta in K.
  destruct K as ((_ & K1 & _) & (_ & _ & K2) & _); cbn [nth]; rewrite K1, K2 by reflexivity; split; apply Int_part_unique; cbn -[IZR]; lra.
Qed.
