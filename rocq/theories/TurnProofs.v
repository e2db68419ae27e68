(** TurnProofs.v - lemmas about TurnModel. *)
From Coq Require Import Reals Lra Psatz ZArith Lia ZifyBool ZifyNat.
From Verif Require Import Base ImageModel ImageFacts GeomModel GeomProofs OField JacobiModel OrientProofs SiftModel SiftProofs TextProofs FourierProofs ColourProofs TurnModel.
Open Scope nat_scope.
Ltac Zify.zify_post_hook ::= Z.div_mod_to_equations.

Lemma reqb_true x y : x = y -> reqb x y = true.
Proof. intros E; unfold reqb; destruct (Req_EM_T x y); auto; contradiction. Qed.
Lemma reqb_false x y : x <> y -> reqb x y = false.
Proof. intros E; unfold reqb; destruct (Req_EM_T x y); auto; contradiction. Qed.

(** ** truncation and remainder *)
Lemma rtrunc_nonneg r : (0 <= r)%R -> (IZR (rtrunc r) <= r < IZR (rtrunc r) + 1)%R.
Proof. intros H; unfold rtrunc; rewrite (proj2 (rleb_spec 0 r) H); apply Int_part_bounds. Qed.
Lemma rtrunc_neg r : (r < 0)%R -> (IZR (rtrunc r) - 1 < r <= IZR (rtrunc r))%R.
Proof.
  intros H; unfold rtrunc; rewrite (proj2 (rleb_false 0 r)) by lra.
  pose proof (Int_part_bounds (- r)); rewrite opp_IZR; lra.
Qed.
Lemma rceil_spec r : (IZR (rceil r) - 1 < r <= IZR (rceil r))%R.
Proof. unfold rceil; pose proof (Int_part_bounds (- r)); rewrite opp_IZR; lra. Qed.
Lemma rceil_IZR z : rceil (IZR z) = z.
Proof. unfold rceil; rewrite <- opp_IZR, Int_part_IZR; lia. Qed.

Lemma fmod_nonneg x m : (0 < m)%R -> (0 <= x)%R -> (0 <= fmod x m < m)%R.
Proof.
  intros M X; unfold fmod; assert (Q : (0 <= x / m)%R) by (apply Rle_mult_inv_pos; auto).
  pose proof (rtrunc_nonneg _ Q) as B; set (z := IZR (rtrunc (x / m))) in *.
  assert (E : x = (m * (x / m))%R) by (field; lra); rewrite E at 1 2; nra.
Qed.
Lemma fmod_neg x m : (0 < m)%R -> (x < 0)%R -> (- m < fmod x m <= 0)%R.
Proof.
  intros M X; unfold fmod; assert (Q : (x / m < 0)%R) by (unfold Rdiv; pose proof (Rinv_0_lt_compat m M); nra).
  pose proof (rtrunc_neg _ Q) as B; set (z := IZR (rtrunc (x / m))) in *.
  assert (E : x = (m * (x / m))%R) by (field; lra); rewrite E at 1 2; nra.
Qed.
Lemma fmod_lt x m : (0 < m)%R -> (fmod x m < m)%R.
Proof. intros M; destruct (Rle_or_lt 0 x); [apply fmod_nonneg; auto | pose proof (fmod_neg x m M); lra]. Qed.
Lemma rtrunc_unique r z : (0 <= IZR z)%R -> (IZR z <= r < IZR z + 1)%R -> rtrunc r = z.
Proof. intros P B; unfold rtrunc; rewrite (proj2 (rleb_spec 0 r)) by lra; apply Int_part_unique; auto. Qed.
Lemma fmod_plus x m : (0 < m)%R -> (0 <= x)%R -> fmod (x + m) m = fmod x m.
Proof.
  intros M X; assert (Q : (0 <= x / m)%R) by (apply Rle_mult_inv_pos; auto).
  pose proof (rtrunc_nonneg _ Q) as B.
  assert (P : (0 <= rtrunc (x / m))%Z) by (unfold rtrunc; rewrite (proj2 (rleb_spec 0 _) Q); pose proof (Int_part_le 0 _ Q); rewrite (Int_part_IZR 0) in *; auto).
  assert (E : rtrunc ((x + m) / m) = (rtrunc (x / m) + 1)%Z).
  { apply rtrunc_unique; rewrite plus_IZR; [apply IZR_le in P; lra|].
    replace ((x + m) / m)%R with (x / m + 1)%R by (field; lra); lra. }
  unfold fmod; rewrite E, plus_IZR; ring.
Qed.
Lemma fmod_small x m : (0 <= x < m)%R -> fmod x m = x.
Proof.
  intros (A & B); unfold fmod; replace (rtrunc (x / m)) with 0%Z; [ring|].
  symmetry; apply rtrunc_unique; [lra|]; split; [apply Rle_mult_inv_pos; lra|].
  apply (Rmult_lt_reg_r m); [lra|]; unfold Rdiv; rewrite Rmult_assoc, Rinv_l; lra.
Qed.
Lemma fmod_small_neg x m : (- m < x < 0)%R -> fmod x m = x.
Proof.
  intros (A & B); unfold fmod; replace (rtrunc (x / m)) with 0%Z; [ring|].
  assert (L : (- (x / m) < 1)%R) by (apply (Rmult_lt_reg_r m); [lra|]; unfold Rdiv; rewrite <- Ropp_mult_distr_l, Rmult_assoc, Rinv_l; lra).
  assert (Q : (x / m < 0)%R) by (unfold Rdiv; assert (I : (0 < / m)%R) by (apply Rinv_0_lt_compat; lra); nra).
  unfold rtrunc; rewrite (proj2 (rleb_false 0 _)) by lra; rewrite (Int_part_unique (- (x / m)) 0) by lra; auto.
Qed.
(** the remainder differs by a whole number of turns *)
Lemma fmod_turns x m : exists k : Z, (x = fmod x m + m * IZR k)%R.
Proof. exists (rtrunc (x / m)); unfold fmod; ring. Qed.

(** ** pixels sent to positions of the same picture: the last one in the order of the loop stays *)
Section Scatter.
  Context {A : Type}.
  Lemma scatter_grid (w h W H : nat) (body : nat * nat -> image A -> res (image A)) (val : nat -> nat -> A) (lands : nat -> nat -> nat -> nat -> Prop) im (f0 : nat -> nat -> A) :
    (forall x y, x < w -> y < h -> exists i j, i < W /\ j < H /\ lands x y i j /\ (forall i' j', lands x y i' j' -> i' = i /\ j' = j) /\
       forall s f, Repr s W H f -> exists s', body (y, x) s = Ok s' /\ Repr s' W H (fun i' j' => if (i' =? i) && (j' =? j) then val x y else f i' j')) ->
    Repr im W H f0 ->
    exists o g, for_list (grid h w) body im = Ok o /\ Repr o W H g /\
      forall i j, i < W -> j < H ->
        (exists x y, x < w /\ y < h /\ lands x y i j /\ g i j = val x y /\
           forall x' y', x' < w -> y' < h -> lands x' y' i j -> y' < y \/ (y' = y /\ x' <= x)) \/
        ((forall x y, x < w -> y < h -> ~ lands x y i j) /\ g i j = f0 i j).
  Proof.
    intros HB R0; rewrite grid_seq, for_list_map.
    set (Inv := fun (k : nat) (s : image A) => exists g, Repr s W H g /\ forall i j, i < W -> j < H ->
        (exists m, m < k /\ lands (m mod w) (m / w) i j /\ g i j = val (m mod w) (m / w) /\
           forall m', m' < k -> lands (m' mod w) (m' / w) i j -> m' <= m) \/
        ((forall m, m < k -> ~ lands (m mod w) (m / w) i j) /\ g i j = f0 i j)).
    assert (B : forall k, k < h * w -> w <> 0 /\ k mod w < w /\ k / w < h).
    { intros k Hk; assert (W0 : w <> 0) by (intros ->; lia); repeat split; auto.
      - apply Nat.mod_upper_bound; auto.
      - apply Nat.div_lt_upper_bound; auto; lia. }
    destruct (for_range_inv (h * w) Inv (fun k s => body (k / w, k mod w) s) im) as (o & E & g & Rg & G).
    - exists f0; split; auto; intros i j _ _; right; split; auto; intros m Hm; lia.
    - intros k s Hk (g & Rg & G); destruct (B k Hk) as (W0 & Mk & Dk).
      destruct (HB _ _ Mk Dk) as (ti & tj & Ti & Tj & L & U & Step).
      destruct (Step s g Rg) as (s' & Es & Rs); exists s'; split; [exact Es|].
      eexists; split; [exact Rs|]; intros i j Hi Hj; cbn beta.
      destruct (Nat.eqb_spec i ti) as [->|Ni]; [destruct (Nat.eqb_spec j tj) as [->|Nj]|]; cbn [andb].
      + left; exists k; repeat split; auto; intros m' Hm' _; lia.
      + destruct (G ti j Hi Hj) as [(m & Hm & Lm & Em & Um)|(Nm & Em)].
        * left; exists m; repeat split; auto; intros m' Hm' Lm'; destruct (Nat.eq_dec m' k) as [->|Nk]; [apply U in Lm'; lia | apply Um; auto; lia].
        * right; split; auto; intros m Hm Lm; destruct (Nat.eq_dec m k) as [->|Nk]; [apply U in Lm; lia | apply (Nm m); auto; lia].
      + destruct (G i j Hi Hj) as [(m & Hm & Lm & Em & Um)|(Nm & Em)].
        * left; exists m; repeat split; auto; intros m' Hm' Lm'; destruct (Nat.eq_dec m' k) as [->|Nk]; [apply U in Lm'; lia | apply Um; auto; lia].
        * right; split; auto; intros m Hm Lm; destruct (Nat.eq_dec m k) as [->|Nk]; [apply U in Lm; lia | apply (Nm m); auto; lia].
    - exists o, g; split; [exact E|]; split; [exact Rg|]; intros i j Hi Hj.
      destruct (G i j Hi Hj) as [(m & Hm & Lm & Em & Um)|(Nm & Em)]; [left | right].
      + destruct (B m Hm) as (W0 & Mm & Dm); exists (m mod w), (m / w); repeat split; auto.
        intros x' y' Hx Hy Lx.
        assert (K : y' * w + x' < h * w) by nia.
        assert (E1 : (y' * w + x') mod w = x') by (rewrite Nat.add_comm, Nat.mod_add by auto; apply Nat.mod_small; auto).
        assert (E2 : (y' * w + x') / w = y') by (rewrite Nat.add_comm, Nat.div_add by auto; rewrite Nat.div_small by auto; auto).
        specialize (Um (y' * w + x') K); rewrite E1, E2 in Um; specialize (Um Lx).
        pose proof (Nat.div_mod m w W0); nia.
      + split; auto; intros x y Hx Hy Lx; apply (Nm (y * w + x)); [nia|].
        rewrite Nat.add_comm, Nat.mod_add, Nat.div_add by lia; rewrite Nat.mod_small, Nat.div_small by auto; auto.
  Qed.
End Scatter.

(** ** the turned position of a pixel *)
Lemma hypot_sin a b r : (hypot a b * sin (atan2 a b + r) = a * cos r + b * sin r)%R.
Proof.
  destruct (atan2_polar a b) as (Eb & Ea); cbv zeta in Ea, Eb.
  unfold hypot; replace (a * a + b * b)%R with (b * b + a * a)%R by ring.
  rewrite sin_plus; rewrite Rmult_plus_distr_l, <- !Rmult_assoc, <- Ea, <- Eb; ring.
Qed.
Lemma hypot_cos a b r : (hypot a b * cos (atan2 b a + r) = a * cos r - b * sin r)%R.
Proof.
  destruct (atan2_polar b a) as (Ea & Eb); cbv zeta in Ea, Eb.
  unfold hypot; rewrite cos_plus; rewrite Rmult_minus_distr_l, <- !Rmult_assoc, <- Ea, <- Eb; ring.
Qed.
Lemma hypot_sin' a b r : (hypot a b * sin (atan2 b a + r) = b * cos r + a * sin r)%R.
Proof.
  replace (hypot a b) with (hypot b a) by (unfold hypot; f_equal; ring); apply hypot_sin.
Qed.
Lemma hypot_pos a b : (0 <= hypot a b)%R.
Proof. apply sqrt_pos. Qed.

Lemma turned_width_eq w h r : turned_width w h r = Rabs (INR w * cos r + INR h * sin r).
Proof.
  unfold turned_width; rewrite <- (Rabs_pos_eq (2 * hypot (INR w / 2) (INR h / 2))) by (pose proof (hypot_pos (INR w / 2) (INR h / 2)); lra).
  rewrite <- Rabs_mult; f_equal; rewrite Rmult_assoc, hypot_sin; lra.
Qed.
Lemma turned_height_eq w h r : turned_height w h r = Rabs (INR h * cos r + INR w * sin r).
Proof.
  unfold turned_height; rewrite <- (Rabs_pos_eq (2 * hypot (INR w / 2) (INR h / 2))) by (pose proof (hypot_pos (INR w / 2) (INR h / 2)); lra).
  rewrite <- Rabs_mult; f_equal; rewrite Rmult_assoc, hypot_sin'; lra.
Qed.

(** the factor by which the turned picture is shrunk *)
Definition turn_ratio (w h : nat) (r : R) : R :=
  if h <? w then (Rabs (INR h * cos r + INR w * sin r) / INR h)%R else (Rabs (INR w * cos r + INR h * sin r) / INR w)%R.

Lemma turned_position_eq w h r x y : turned_position w h r x y =
  if reqb (turn_ratio w h r) 0 then UB else
  let u := (INR x - INR w / 2)%R in let v := (INR y - INR h / 2)%R in
  Ok ((u * cos r - v * sin r) / turn_ratio w h r + INR w / 2, (u * sin r + v * cos r) / turn_ratio w h r + INR h / 2)%R.
Proof.
  unfold turned_position; rewrite turned_width_eq, turned_height_eq; fold (turn_ratio w h r).
  destruct (reqb (turn_ratio w h r) 0); auto; cbv zeta; do 2 f_equal.
  - set (k := turn_ratio w h r); set (u := (INR x - INR w / 2)%R); set (v := (INR y - INR h / 2)%R).
    replace (hypot u v * (1 / k) * cos (atan2 v u + r))%R with ((hypot u v * cos (atan2 v u + r)) / k)%R by (unfold Rdiv; ring).
    rewrite hypot_cos; reflexivity.
  - set (k := turn_ratio w h r); set (u := (INR x - INR w / 2)%R); set (v := (INR y - INR h / 2)%R).
    replace (hypot u v * (1 / k) * sin (atan2 v u + r))%R with ((hypot u v * sin (atan2 v u + r)) / k)%R by (unfold Rdiv; ring).
    rewrite hypot_sin'; do 2 f_equal; ring.
Qed.

(** in the first quadrant nothing leaves the picture *)
Lemma turn_bounds W H c s u v k :
  (0 < W -> 0 < H -> 0 < c -> 0 < s -> - (W / 2) <= u <= W / 2 - 1 -> - (H / 2) <= v <= H / 2 - 1 ->
   (H < W -> k = (H * c + W * s) / H) -> (W <= H -> k = (W * c + H * s) / W) ->
   0 < k /\ 0 <= (u * c - v * s) / k + W / 2 < W /\ 0 <= (u * s + v * c) / k + H / 2 < H)%R.
Proof.
  intros PW PH C S U V K1 K2.
  assert (KP : (0 < k)%R).
  { destruct (Rlt_or_le H W) as [L|L]; [rewrite (K1 L) | rewrite (K2 L)]; apply Rdiv_lt_0_compat; auto; nra. }
  assert (KW : (W * c + H * s <= k * W)%R).
  { destruct (Rlt_or_le H W) as [L|L].
    - rewrite (K1 L); apply (Rmult_le_reg_r H); auto; unfold Rdiv.
      replace ((H * c + W * s) * / H * W * H)%R with ((H * c + W * s) * W)%R by (field; lra).
      assert (H * H <= W * W)%R by nra; nra.
    - rewrite (K2 L); right; field; lra. }
  assert (KH : (W * s + H * c <= k * H)%R).
  { destruct (Rlt_or_le H W) as [L|L].
    - rewrite (K1 L); right; field; lra.
    - rewrite (K2 L); apply (Rmult_le_reg_r W); auto; unfold Rdiv.
      replace ((W * c + H * s) * / W * H * W)%R with ((W * c + H * s) * H)%R by (field; lra).
      assert (W * W <= H * H)%R by nra; nra. }
  assert (D : forall a b, (- (k * b) <= a < k * b -> - b <= a / k < b)%R).
  { intros a b (A1 & A2); split; [apply (Rmult_le_reg_r k) | apply (Rmult_lt_reg_r k)]; auto;
      unfold Rdiv; rewrite Rmult_assoc, Rinv_l by lra; lra. }
  split; auto.
  assert (X : (- (W / 2) <= (u * c - v * s) / k < W / 2)%R) by (apply D; split; nra).
  assert (Y : (- (H / 2) <= (u * s + v * c) / k < H / 2)%R) by (apply D; split; nra).
  lra.
Qed.

Lemma turn_ratio_first w h r : (0 < cos r)%R -> (0 < sin r)%R -> 
  (INR h < INR w -> turn_ratio w h r = (INR h * cos r + INR w * sin r) / INR h)%R /\
  (INR w <= INR h -> turn_ratio w h r = (INR w * cos r + INR h * sin r) / INR w)%R.
Proof.
  intros C S; pose proof (pos_INR w); pose proof (pos_INR h); unfold turn_ratio; split; intros L.
  - apply INR_lt in L; rewrite (proj2 (Nat.ltb_lt h w) L); rewrite Rabs_pos_eq by nra; auto.
  - apply INR_le in L; rewrite (proj2 (Nat.ltb_ge h w) L); rewrite Rabs_pos_eq by nra; auto.
Qed.

Lemma to_size_t_floor r n : (INR n <= r < INR n + 1)%R -> (Z.of_nat n < two64)%Z -> to_size_t r = Ok n.
Proof.
  intros B F; assert (r < IZR two64)%R.
  { assert (INR n + 1 <= IZR two64)%R by (rewrite INR_IZR_INZ, <- plus_IZR; apply IZR_le; lia); lra. }
  destruct (to_size_t_ok r) as (m & E & Bm); [pose proof (pos_INR n); lra|].
  rewrite E; f_equal; assert (L1 : (INR m < INR (n + 1))%R) by (rewrite plus_INR; cbn [INR]; lra).
  assert (L2 : (INR n < INR (m + 1))%R) by (rewrite plus_INR; cbn [INR]; lra).
  apply INR_lt in L1, L2; lia.
Qed.

Lemma two64_R n : (Z.of_nat n < two64)%Z -> (INR n < IZR two64)%R.
Proof. intros H; rewrite INR_IZR_INZ; apply IZR_lt; auto. Qed.

Section Rotate.
  Context {A : Type} (d : A).

  Lemma rotate_scatter_ok im w h f r : Repr im w h f -> (Z.of_nat w < two64)%Z -> (Z.of_nat h < two64)%Z ->
    (0 < cos r)%R -> (0 < sin r)%R ->
    let lands x y i j :=
      let u := (INR x - INR w / 2)%R in let v := (INR y - INR h / 2)%R in
      (INR i <= (u * cos r - v * sin r) / turn_ratio w h r + INR w / 2 < INR i + 1)%R /\
      (INR j <= (u * sin r + v * cos r) / turn_ratio w h r + INR h / 2 < INR j + 1)%R in
    (forall x y, x < w -> y < h -> exists i j, i < w /\ j < h /\ lands x y i j) /\
    exists o g, rotate_scatter d im r = Ok o /\ Repr o w h g /\
      forall i j, i < w -> j < h ->
        (exists x y, x < w /\ y < h /\ lands x y i j /\ g i j = f x y /\
           forall x' y', x' < w -> y' < h -> lands x' y' i j -> y' < y \/ (y' = y /\ x' <= x)) \/
        ((forall x y, x < w -> y < h -> ~ lands x y i j) /\ g i j = d).
  Proof.
    intros Rf Fw Fh C S lands; destruct (turn_ratio_first w h r C S) as (K1 & K2).
    assert (T : forall x y, x < w -> y < h -> (0 < turn_ratio w h r)%R /\ exists i j, i < w /\ j < h /\ lands x y i j).
    { intros x y Hx Hy; unfold lands; cbv zeta.
      assert (Wp : (0 < INR w)%R) by (apply lt_0_INR; lia); assert (Hp : (0 < INR h)%R) by (apply lt_0_INR; lia).
      assert (Xb : (INR x + 1 <= INR w)%R) by (rewrite <- S_INR; apply le_INR; lia).
      assert (Yb : (INR y + 1 <= INR h)%R) by (rewrite <- S_INR; apply le_INR; lia).
      pose proof (pos_INR x); pose proof (pos_INR y).
      destruct (turn_bounds (INR w) (INR h) (cos r) (sin r) (INR x - INR w / 2) (INR y - INR h / 2) (turn_ratio w h r)) as (KP & BX & BY); auto; try lra.
      split; auto.
      destruct (to_size_t_ok _ (conj (proj1 BX) (Rlt_trans _ _ _ (proj2 BX) (two64_R w Fw)))) as (i & _ & Bi).
      destruct (to_size_t_ok _ (conj (proj1 BY) (Rlt_trans _ _ _ (proj2 BY) (two64_R h Fh)))) as (j & _ & Bj).
      exists i, j; split; [apply INR_lt; lra|]; split; [apply INR_lt; lra|]; split; auto. }
    split; [intros x y Hx Hy; apply T; auto|].
    unfold rotate_scatter; rewrite (get_width_Repr _ _ _ _ Rf), (get_height_Repr _ _ _ _ Rf); cbn [bind]; rewrite for_range_nested.
    apply scatter_grid; [|apply Repr_sizes].
    intros x y Hx Hy; destruct (T x y Hx Hy) as (KP & i & j & Hi & Hj & L); exists i, j; split; auto; split; auto; split; auto; split.
    - intros i' j' (L1 & L2); destruct L as (L3 & L4); cbv zeta in *.
      assert (I1 : (INR i' < INR (i + 1))%R) by (rewrite plus_INR; cbn [INR]; lra).
      assert (I2 : (INR i < INR (i' + 1))%R) by (rewrite plus_INR; cbn [INR]; lra).
      assert (J1 : (INR j' < INR (j + 1))%R) by (rewrite plus_INR; cbn [INR]; lra).
      assert (J2 : (INR j < INR (j' + 1))%R) by (rewrite plus_INR; cbn [INR]; lra).
      apply INR_lt in I1, I2, J1, J2; lia.
    - intros s g Rs; cbn [fst snd]; rewrite turned_position_eq, reqb_false by lra; cbv zeta; cbn [bind].
      rewrite (at_Repr _ _ _ _ _ _ Rf) by auto; cbn [bind]; destruct L as (L1 & L2).
      rewrite (to_size_t_floor _ i L1), (to_size_t_floor _ j L2) by lia; cbn [bind].
      apply at_set_Repr; auto.
  Qed.

  (** with a negative angle the first pixel of a square picture is already thrown out *)
  Lemma rotate_scatter_negative im n f r : Repr im n n f -> 0 < n -> (sin r < 0)%R -> (- sin r <= cos r)%R -> (cos r <= (INR n + 1) * - sin r)%R ->
    rotate_scatter d im r = UB.
  Proof.
    intros Rf Hn Sn SC B; unfold rotate_scatter; rewrite (get_width_Repr _ _ _ _ Rf), (get_height_Repr _ _ _ _ Rf); cbn [bind].
    destruct n as [|n]; [lia|]; unfold for_range; cbn [seq for_list].
    assert (E : turned_position (S n) (S n) r 0 0 = UB \/ exists px py, turned_position (S n) (S n) r 0 0 = Ok (px, py) /\ (px <= -1)%R).
    { rewrite turned_position_eq; unfold turn_ratio; rewrite Nat.ltb_irrefl; set (N := INR (S n)) in *.
      assert (NP : (0 < N)%R) by (apply lt_0_INR; lia).
      destruct (Req_dec (cos r) (- sin r)) as [Ec|Nc].
      - left; rewrite reqb_true; auto; replace (N * cos r + N * sin r)%R with 0%R by (rewrite Ec; ring); rewrite Rabs_R0; unfold Rdiv; ring.
      - right; assert (P : (0 < cos r + sin r)%R) by lra.
        replace (Rabs (N * cos r + N * sin r) / N)%R with (cos r + sin r)%R by (rewrite Rabs_pos_eq by nra; field; lra).
        rewrite reqb_false by lra; cbv zeta; do 2 eexists; split; [reflexivity|]; cbn [INR].
        replace (((0 - N / 2) * cos r - (0 - N / 2) * sin r) / (cos r + sin r) + N / 2)%R with (N * sin r / (cos r + sin r))%R by (field; lra).
        apply (Rmult_le_reg_r (cos r + sin r)); auto; unfold Rdiv; rewrite Rmult_assoc, Rinv_l by lra; lra. }
    destruct E as [->|(px & py & -> & L)]; cbn [bind]; auto.
    rewrite (at_Repr _ _ _ _ _ _ Rf) by lia; cbn [bind]; rewrite to_size_t_UB by auto; auto.
  Qed.

  Lemma rotate_loop_never hp n im r : (r <= hp)%R -> rotate_loop_r d hp (S n) im r = Some (Ok (im, r)).
  Proof. intros H; cbn [rotate_loop_r]; rewrite (proj2 (rltb_false hp r)) by lra; auto. Qed.

  Lemma rotate_r_detail hp n im r : (0 < hp)%R -> length (dims im) = 2 -> rotate_r d hp (S n) im r = Some (rotate_detail_r d hp im (fmod r hp)).
  Proof.
    intros P D; unfold rotate_r; assert (E : check2d im = Ok tt) by (unfold check2d, get_dimensionality; rewrite D; auto); rewrite E.
    rewrite rotate_loop_never by (pose proof (fmod_lt r hp P); lra); reflexivity.
  Qed.
End Rotate.

(** ** sampling at the turned-back positions *)
Definition source_x (w nw nh : nat) (r : R) (i j : nat) : R :=
  ((INR i - (INR nw - 1) / 2) * cos r + (INR j - (INR nh - 1) / 2) * sin r + (INR w - 1) / 2)%R.
Definition source_y (h nw nh : nat) (r : R) (i j : nat) : R :=
  (- (INR i - (INR nw - 1) / 2) * sin r + (INR j - (INR nh - 1) / 2) * cos r + (INR h - 1) / 2)%R.
Definition ceiling (n : nat) (r : R) : Prop := (INR n - 1 < r <= INR n)%R.

Lemma ceiling_unique n m r : ceiling n r -> ceiling m r -> n = m.
Proof.
  unfold ceiling; intros A B.
  assert (L1 : (INR n < INR (m + 1))%R) by (rewrite plus_INR; cbn [INR]; lra).
  assert (L2 : (INR m < INR (n + 1))%R) by (rewrite plus_INR; cbn [INR]; lra).
  apply INR_lt in L1, L2; lia.
Qed.

Lemma to_size_t_ceil r (B : nat) : (0 <= r <= INR B)%R -> (Z.of_nat B < two64)%Z -> exists n, to_size_t (IZR (rceil r)) = Ok n /\ ceiling n r.
Proof.
  intros (P & L) F; pose proof (rceil_spec r) as C.
  assert (Z0 : (0 <= rceil r)%Z) by (assert (IZR (-1) < IZR (rceil r))%R as K by lra; apply lt_IZR in K; lia).
  assert (ZB : (rceil r <= Z.of_nat B)%Z).
  { assert (K : (IZR (rceil r) < IZR (Z.of_nat B + 1))%R) by (rewrite plus_IZR, <- INR_IZR_INZ; lra); apply lt_IZR in K; lia. }
  assert (EN : INR (Z.to_nat (rceil r)) = IZR (rceil r)) by (rewrite INR_IZR_INZ, Z2Nat.id by auto; auto).
  exists (Z.to_nat (rceil r)); split; [apply to_size_t_floor; [rewrite EN; lra | lia]|]; unfold ceiling; rewrite EN; lra.
Qed.

Lemma cos_turns x k : cos (x + 2 * PI * IZR k) = cos x.
Proof.
  destruct (Z_le_gt_dec 0 k) as [P|N].
  - replace (x + 2 * PI * IZR k)%R with (x + 2 * INR (Z.to_nat k) * PI)%R by (rewrite INR_IZR_INZ, Z2Nat.id by auto; ring); apply cos_period.
  - set (y := (x + 2 * PI * IZR k)%R); replace x with (y + 2 * INR (Z.to_nat (- k)) * PI)%R; [symmetry; apply cos_period|].
    rewrite INR_IZR_INZ, Z2Nat.id by lia; unfold y; rewrite opp_IZR; ring.
Qed.
Lemma sin_turns x k : sin (x + 2 * PI * IZR k) = sin x.
Proof.
  destruct (Z_le_gt_dec 0 k) as [P|N].
  - replace (x + 2 * PI * IZR k)%R with (x + 2 * INR (Z.to_nat k) * PI)%R by (rewrite INR_IZR_INZ, Z2Nat.id by auto; ring); apply sin_period.
  - set (y := (x + 2 * PI * IZR k)%R); replace x with (y + 2 * INR (Z.to_nat (- k)) * PI)%R; [symmetry; apply sin_period|].
    rewrite INR_IZR_INZ, Z2Nat.id by lia; unfold y; rewrite opp_IZR; ring.
Qed.

Lemma abs_cos_le r : (Rabs (cos r) <= 1)%R.
Proof. apply Rabs_le; pose proof (COS_bound r); lra. Qed.
Lemma abs_sin_le r : (Rabs (sin r) <= 1)%R.
Proof. apply Rabs_le; pose proof (SIN_bound r); lra. Qed.

Section Shear.
  Context {A : Type} (d : A) (interp : image A -> R -> R -> res A).

  Lemma fill_grid_any w h (body : nat * nat -> image A -> res (image A)) (g : nat -> nat -> A) :
    (forall x y s f, x < w -> y < h -> Repr s w h f -> exists s', body (y, x) s = Ok s' /\ Repr s' w h (fun i j => if (i =? x) && (j =? y) then g x y else f i j)) ->
    exists o, for_list (grid h w) body (image_sizes d [w; h]) = Ok o /\ Repr o w h g.
  Proof.
    intros HB; destruct (scatter_grid w h w h body g (fun x y i j => i = x /\ j = y) (image_sizes d [w; h]) (fun _ _ => d)) as (o & g' & E & Rg & G).
    - intros x y Hx Hy; exists x, y; repeat split; auto; try tauto; intros s f Rs; apply HB; auto.
    - apply Repr_sizes.
    - exists o; split; auto; apply (Repr_ext _ _ _ _ _ Rg); intros i j Hi Hj.
      destruct (G i j Hi Hj) as [(x & y & Hx & Hy & (-> & ->) & Eg & _)|(N & _)]; auto; exfalso; apply (N i j); auto.
  Qed.

  Lemma shear_general_ok im w h f r (val : R -> R -> A) : Repr im w h f -> (Z.of_nat (w + h) < two64)%Z ->
    (forall x y, interp im x y = Ok (val x y)) ->
    exists nw nh o, shear_general d interp im r = Ok o /\
      ceiling nw (INR w * Rabs (cos r) + INR h * Rabs (sin r)) /\ ceiling nh (INR h * Rabs (cos r) + INR w * Rabs (sin r)) /\
      Repr o nw nh (fun i j => val (source_x w nw nh r i j) (source_y h nw nh r i j)).
  Proof.
    intros Rf F I; unfold shear_general; rewrite (get_width_Repr _ _ _ _ Rf), (get_height_Repr _ _ _ _ Rf); cbn [bind].
    pose proof (pos_INR w) as Pw; pose proof (pos_INR h) as Ph.
    pose proof (abs_cos_le r); pose proof (abs_sin_le r); pose proof (Rabs_pos (cos r)); pose proof (Rabs_pos (sin r)).
    rewrite !Rabs_mult, !(Rabs_pos_eq (INR w)), !(Rabs_pos_eq (INR h)) by auto.
    destruct (to_size_t_ceil (INR h * Rabs (cos r) + INR w * Rabs (sin r)) (w + h)) as (nh & -> & Ch); [rewrite plus_INR; nra | auto |].
    destruct (to_size_t_ceil (INR w * Rabs (cos r) + INR h * Rabs (sin r)) (w + h)) as (nw & -> & Cw); [rewrite plus_INR; nra | auto |].
    cbn [bind]; rewrite for_range_nested.
    destruct (fill_grid_any nw nh (fun p s =>
       let* v := interp im (((INR (snd p) - (INR nw - 1) / 2) * cos r + (INR (fst p) - (INR nh - 1) / 2) * sin r) + (INR w - 1) / 2)%R
                           ((- (INR (snd p) - (INR nw - 1) / 2) * sin r + (INR (fst p) - (INR nh - 1) / 2) * cos r) + (INR h - 1) / 2)%R in
       at_set s [snd p; fst p] v) (fun i j => val (source_x w nw nh r i j) (source_y h nw nh r i j))) as (o & E & Ro).
    - intros x y s g Hx Hy Rs; cbn [fst snd]; rewrite I; cbn [bind]; apply at_set_Repr; auto.
    - exists nw, nh, o; split; [exact E|]; auto.
  Qed.

  Lemma rotate_shear_all im w h f r (val : R -> R -> A) : Repr im w h f -> (Z.of_nat (w + h) < two64)%Z ->
    (forall x y, interp im x y = Ok (val x y)) -> (forall x y, x < w -> y < h -> val (INR x) (INR y) = f x y) ->
    exists nw nh o, rotate_shear d (PI / 2) interp im r = Ok o /\
      ceiling nw (INR w * Rabs (cos r) + INR h * Rabs (sin r)) /\ ceiling nh (INR h * Rabs (cos r) + INR w * Rabs (sin r)) /\
      Repr o nw nh (fun i j => val (source_x w nw nh r i j) (source_y h nw nh r i j)).
  Proof.
    intros Rf F I X; unfold rotate_shear; rewrite (check2d_Repr _ _ _ _ Rf); cbn [bind]; cbv zeta.
    pose proof PI_RGT_0 as PP.
    replace (2 * (2 * (PI / 2)))%R with (2 * PI)%R by field.
    set (r0 := if rltb (fmod r (2 * PI)) 0 then (fmod r (2 * PI) + 2 * PI)%R else fmod r (2 * PI)).
    assert (T : exists k, (r = r0 + 2 * PI * IZR k)%R).
    { destruct (fmod_turns r (2 * PI)) as (k & E); unfold r0; destruct (rltb (fmod r (2 * PI)) 0).
      - exists (k - 1)%Z; rewrite minus_IZR; lra.
      - exists k; auto. }
    destruct T as (k & T).
    assert (C : cos r = cos r0) by (rewrite T; apply cos_turns).
    assert (S : sin r = sin r0) by (rewrite T; apply sin_turns).
    assert (SX : forall nw nh i j, source_x w nw nh r i j = source_x w nw nh r0 i j) by (intros; unfold source_x; rewrite C, S; auto).
    assert (SY : forall nw nh i j, source_y h nw nh r i j = source_y h nw nh r0 i j) by (intros; unfold source_y; rewrite C, S; auto).
    cut (exists nw nh o, (if reqb r0 0 then Ok im else if reqb r0 (PI / 2) then rotate_quarter d im else shear_general d interp im r0) = Ok o /\
      ceiling nw (INR w * Rabs (cos r0) + INR h * Rabs (sin r0)) /\ ceiling nh (INR h * Rabs (cos r0) + INR w * Rabs (sin r0)) /\
      Repr o nw nh (fun i j => val (source_x w nw nh r0 i j) (source_y h nw nh r0 i j))).
    { intros (nw & nh & o & E & Cw & Ch & Ro); exists nw, nh, o; rewrite C, S; repeat (split; [solve [auto]|]).
      apply (Repr_ext _ _ _ _ _ Ro); intros; rewrite SX, SY; auto. }
    destruct (Req_dec r0 0) as [E0|N0]; [|destruct (Req_dec r0 (PI / 2)) as [E1|N1]].
    - rewrite (reqb_true _ _ E0), E0, cos_0, sin_0, Rabs_R0, Rabs_R1; exists w, h, im; split; auto.
      unfold ceiling; split; [lra|]; split; [lra|].
      apply (Repr_ext _ _ _ _ _ Rf); intros i j Hi Hj; rewrite <- X by auto; unfold source_x, source_y; rewrite cos_0, sin_0; f_equal; field.
    - rewrite (reqb_false _ _ N0), (reqb_true _ _ E1), E1, cos_PI2, sin_PI2, Rabs_R0, Rabs_R1.
      destruct (rotate_quarter_Repr d im w h f Rf) as (o & E & Ro); exists h, w, o; split; auto.
      unfold ceiling; split; [lra|]; split; [lra|].
      apply (Repr_ext _ _ _ _ _ Ro); intros i j Hi Hj; rewrite <- X by lia; unfold source_x, source_y; rewrite cos_PI2, sin_PI2.
      rewrite !minus_INR by lia; cbn [INR]; f_equal; field.
    - rewrite (reqb_false _ _ N0), (reqb_false _ _ N1); apply (shear_general_ok im w h f r0 val); auto.
  Qed.

  (** nothing is cut off: every point of the picture has its place in the result *)
  Lemma shear_covers w h nw nh r px py :
    ceiling nw (INR w * Rabs (cos r) + INR h * Rabs (sin r)) -> ceiling nh (INR h * Rabs (cos r) + INR w * Rabs (sin r)) ->
    (0 <= px <= INR w - 1 -> 0 <= py <= INR h - 1 ->
    let u := px - (INR w - 1) / 2 in let v := py - (INR h - 1) / 2 in
    0 <= u * cos r - v * sin r + (INR nw - 1) / 2 <= INR nw - 1 /\ 0 <= u * sin r + v * cos r + (INR nh - 1) / 2 <= INR nh - 1)%R.
  Proof.
    unfold ceiling; intros Cw Ch Hx Hy; cbv zeta; set (u := (px - (INR w - 1) / 2)%R); set (v := (py - (INR h - 1) / 2)%R).
    assert (CS : (1 <= Rabs (cos r) + Rabs (sin r))%R).
    { pose proof (Rabs_pos (cos r)); pose proof (Rabs_pos (sin r)); pose proof (sin2_cos2 r) as E; unfold Rsqr in E.
      pose proof (abs_cos_le r); pose proof (abs_sin_le r).
      assert (E1 : (Rabs (cos r) * Rabs (cos r) = cos r * cos r)%R) by (rewrite <- Rabs_mult; apply Rabs_pos_eq; nra).
      assert (E2 : (Rabs (sin r) * Rabs (sin r) = sin r * sin r)%R) by (rewrite <- Rabs_mult; apply Rabs_pos_eq; nra).
      nra. }
    assert (M : forall a b m, (Rabs a <= m -> - (m * Rabs b) <= a * b <= m * Rabs b)%R).
    { intros a b m Ha; assert (Hb : (Rabs (a * b) <= m * Rabs b)%R) by (rewrite Rabs_mult; pose proof (Rabs_pos b); nra).
      revert Hb; unfold Rabs at 1; destruct (Rcase_abs (a * b)); lra. }
    assert (Mu : (Rabs u <= (INR w - 1) / 2)%R) by (apply Rabs_le; unfold u; lra).
    assert (Mv : (Rabs v <= (INR h - 1) / 2)%R) by (apply Rabs_le; unfold v; lra).
    pose proof (M u (cos r) _ Mu); pose proof (M u (sin r) _ Mu); pose proof (M v (cos r) _ Mv); pose proof (M v (sin r) _ Mv).
    lra.
  Qed.
End Shear.

(** ** the interpolators *)
Section InterpR.
  Context {A : Type} (conv : A -> R) (fin : R -> A) (zero : A).

  Lemma bilinear_r_total im w h f x y : Repr im w h f -> (Z.of_nat w < two64)%Z -> (Z.of_nat h < two64)%Z -> exists v, bilinear_r conv fin zero im x y = Ok v.
  Proof.
    intros Rf Fw Fh; unfold bilinear_r; rewrite (get_width_Repr _ _ _ _ Rf), (get_height_Repr _ _ _ _ Rf); cbn [bind].
    destruct (rltb x 0 || rltb (INR w - 1) x || rltb y 0 || rltb (INR h - 1) y) eqn:E; [eexists; reflexivity|].
    apply orb_false_elim in E as (E & E4); apply orb_false_elim in E as (E & E3); apply orb_false_elim in E as (E1 & E2).
    apply rltb_false in E1, E2, E3, E4.
    pose proof (two64_R w Fw); pose proof (two64_R h Fh).
    destruct (to_size_t_ok x) as (x1 & -> & Bx); [lra|]; destruct (to_size_t_ok y) as (y1 & -> & By); [lra|]; cbn [bind].
    assert (Hx : x1 < w) by (apply INR_lt; lra); assert (Hy : y1 < h) by (apply INR_lt; lra).
    assert (Hx2 : (if w <=? x1 + 1 then x1 else x1 + 1) < w) by (destruct (Nat.leb_spec w (x1 + 1)); lia).
    assert (Hy2 : (if h <=? y1 + 1 then y1 else y1 + 1) < h) by (destruct (Nat.leb_spec h (y1 + 1)); lia).
    rewrite !(at_Repr _ _ _ _ _ _ Rf) by auto; cbn [bind]; eexists; reflexivity.
  Qed.

  Lemma bilinear_r_outside im w h f x y : Repr im w h f -> (x < 0 \/ INR w - 1 < x \/ y < 0 \/ INR h - 1 < y)%R -> bilinear_r conv fin zero im x y = Ok zero.
  Proof.
    intros Rf O; unfold bilinear_r; rewrite (get_width_Repr _ _ _ _ Rf), (get_height_Repr _ _ _ _ Rf); cbn [bind].
    assert (E : rltb x 0 || rltb (INR w - 1) x || rltb y 0 || rltb (INR h - 1) y = true); [|rewrite E; auto].
    destruct O as [O|[O|[O|O]]]; rewrite (proj2 (rltb_spec _ _) O), ?orb_true_r; auto.
  Qed.

  Lemma bilinear_r_sample im w h f i j : Repr im w h f -> (Z.of_nat w < two64)%Z -> (Z.of_nat h < two64)%Z -> i < w -> j < h ->
    bilinear_r conv fin zero im (INR i) (INR j) = Ok (fin (conv (f i j))).
  Proof.
    intros Rf Fw Fh Hi Hj; unfold bilinear_r; rewrite (get_width_Repr _ _ _ _ Rf), (get_height_Repr _ _ _ _ Rf); cbn [bind].
    assert (Bi : (INR i + 1 <= INR w)%R) by (rewrite <- S_INR; apply le_INR; lia).
    assert (Bj : (INR j + 1 <= INR h)%R) by (rewrite <- S_INR; apply le_INR; lia).
    pose proof (pos_INR i); pose proof (pos_INR j).
    rewrite (proj2 (rltb_false (INR i) 0)), (proj2 (rltb_false (INR w - 1) (INR i))), (proj2 (rltb_false (INR j) 0)), (proj2 (rltb_false (INR h - 1) (INR j))) by lra.
    cbn [orb]; rewrite (to_size_t_floor (INR i) i), (to_size_t_floor (INR j) j) by (try lra; lia); cbn [bind].
    assert (Hx2 : (if w <=? i + 1 then i else i + 1) < w) by (destruct (Nat.leb_spec w (i + 1)); lia).
    assert (Hy2 : (if h <=? j + 1 then j else j + 1) < h) by (destruct (Nat.leb_spec h (j + 1)); lia).
    rewrite !(at_Repr _ _ _ _ _ _ Rf) by auto; cbn [bind]; do 2 f_equal; ring.
  Qed.

  Lemma bicubic_r_total im w h f x y : Repr im w h f -> (Z.of_nat w < two64)%Z -> (Z.of_nat h < two64)%Z -> exists v, bicubic_r conv fin zero im x y = Ok v.
  Proof.
    intros Rf Fw Fh; unfold bicubic_r; rewrite (get_width_Repr _ _ _ _ Rf), (get_height_Repr _ _ _ _ Rf); cbn [bind].
    destruct (rltb x 1 || rleb (INR w - 2) x || rltb y 1 || rleb (INR h - 2) y) eqn:E; [apply (bilinear_r_total im w h f); auto|].
    apply orb_false_elim in E as (E & E4); apply orb_false_elim in E as (E & E3); apply orb_false_elim in E as (E1 & E2).
    apply rltb_false in E1, E3; apply rleb_false in E2, E4.
    pose proof (two64_R w Fw); pose proof (two64_R h Fh).
    destruct (to_size_t_ok x) as (x1 & -> & Bx); [lra|]; destruct (to_size_t_ok y) as (y1 & -> & By); [lra|]; cbn [bind].
    assert (Hx : x1 + 2 < w) by (apply INR_lt; rewrite plus_INR; cbn [INR]; lra).
    assert (Hy : y1 + 2 < h) by (apply INR_lt; rewrite plus_INR; cbn [INR]; lra).
    assert (X1 : 0 < x1) by (apply INR_lt; cbn [INR]; lra); assert (Y1 : 0 < y1) by (apply INR_lt; cbn [INR]; lra).
    unfold for_range; cbn [seq for_list]; do 16 (rewrite (at_Repr _ _ _ _ _ _ Rf) by lia; cbn [bind]); eexists; reflexivity.
  Qed.

  Lemma bicubic_r_outside im w h f x y : Repr im w h f -> (x < 0 \/ INR w - 1 < x \/ y < 0 \/ INR h - 1 < y)%R -> bicubic_r conv fin zero im x y = Ok zero.
  Proof.
    intros Rf O; unfold bicubic_r; rewrite (get_width_Repr _ _ _ _ Rf), (get_height_Repr _ _ _ _ Rf); cbn [bind].
    assert (E : rltb x 1 || rleb (INR w - 2) x || rltb y 1 || rleb (INR h - 2) y = true).
    { destruct O as [O|[O|[O|O]]].
      - rewrite (proj2 (rltb_spec x 1)) by lra; auto.
      - rewrite (proj2 (rleb_spec (INR w - 2) x)) by lra; rewrite orb_true_r; auto.
      - rewrite (proj2 (rltb_spec y 1)) by lra; rewrite !orb_true_r; auto.
      - rewrite (proj2 (rleb_spec (INR h - 2) y)) by lra; rewrite !orb_true_r; auto. }
    rewrite E; apply (bilinear_r_outside im w h f); auto.
  Qed.

  Lemma kernel_0 : cubic_kernel_r 0 = 1%R.
  Proof. unfold cubic_kernel_r; rewrite Rabs_R0, (proj2 (rleb_spec 0 1)) by lra; field. Qed.
  Lemma kernel_1 x : (Rabs x = 1)%R -> cubic_kernel_r x = 0%R.
  Proof. intros E; unfold cubic_kernel_r; rewrite E, (proj2 (rleb_spec 1 1)) by lra; field. Qed.
  Lemma kernel_2 x : (Rabs x = 2)%R -> cubic_kernel_r x = 0%R.
  Proof. intros E; unfold cubic_kernel_r; rewrite E, (proj2 (rleb_false 2 1)), (proj2 (rltb_false 2 2)) by lra; auto. Qed.

  Lemma bicubic_r_sample im w h f i j : Repr im w h f -> (Z.of_nat w < two64)%Z -> (Z.of_nat h < two64)%Z -> i < w -> j < h ->
    bicubic_r conv fin zero im (INR i) (INR j) = Ok (fin (conv (f i j))).
  Proof.
    intros Rf Fw Fh Hi Hj; unfold bicubic_r; rewrite (get_width_Repr _ _ _ _ Rf), (get_height_Repr _ _ _ _ Rf); cbn [bind].
    destruct (rltb (INR i) 1 || rleb (INR w - 2) (INR i) || rltb (INR j) 1 || rleb (INR h - 2) (INR j)) eqn:E; [apply (bilinear_r_sample im w h f); auto|].
    apply orb_false_elim in E as (E & E4); apply orb_false_elim in E as (E & E3); apply orb_false_elim in E as (E1 & E2).
    apply rltb_false in E1, E3; apply rleb_false in E2, E4.
    assert (Hx : i + 2 < w) by (apply INR_lt; rewrite plus_INR; cbn [INR]; lra).
    assert (Hy : j + 2 < h) by (apply INR_lt; rewrite plus_INR; cbn [INR]; lra).
    assert (I1 : 1 <= i) by (apply INR_le; cbn [INR]; lra); assert (J1 : 1 <= j) by (apply INR_le; cbn [INR]; lra).
    rewrite (to_size_t_floor (INR i) i), (to_size_t_floor (INR j) j) by (try lra; lia); cbn [bind].
    unfold for_range; cbn [seq for_list]; do 16 (rewrite (at_Repr _ _ _ _ _ _ Rf) by lia; cbn [bind]).
    assert (K : forall n, 1 <= n ->
        cubic_kernel_r (INR n - INR (n - 1 + 0)) = 0%R /\ cubic_kernel_r (INR n - INR (n - 1 + 1)) = 1%R /\
        cubic_kernel_r (INR n - INR (n - 1 + 2)) = 0%R /\ cubic_kernel_r (INR n - INR (n - 1 + 3)) = 0%R).
    { intros n Hn; rewrite !plus_INR, !minus_INR by auto; cbn [INR]; split; [|split; [|split]].
      - apply kernel_1; replace (INR n - (INR n - 1 + 0))%R with 1%R by ring; apply Rabs_R1.
      - replace (INR n - (INR n - 1 + 1))%R with 0%R by ring; apply kernel_0.
      - apply kernel_1; replace (INR n - (INR n - 1 + (1 + 1)))%R with (- (1))%R by ring; rewrite Rabs_Ropp; apply Rabs_R1.
      - apply kernel_2; replace (INR n - (INR n - 1 + (1 + 1 + 1)))%R with (- (2))%R by ring; rewrite Rabs_Ropp; apply Rabs_pos_eq; lra. }
    destruct (K i I1) as (-> & -> & -> & ->); destruct (K j J1) as (-> & -> & -> & ->).
    replace (i - 1 + 1) with i by lia; replace (j - 1 + 1) with j by lia; do 2 f_equal; ring.
  Qed.
End InterpR.

Lemma rtrunc_IZR z : rtrunc (IZR z) = z.
Proof.
  unfold rtrunc; destruct (rleb 0 (IZR z)); [apply Int_part_IZR|]; rewrite <- opp_IZR, Int_part_IZR; lia.
Qed.
Lemma fin_int_r_exact lo hi z : (lo <= z <= hi)%Z -> fin_int_r lo hi (IZR z) = z.
Proof.
  intros (L & H); unfold fin_int_r; apply IZR_le in L, H.
  rewrite (proj2 (rltb_false (IZR hi) (IZR z))), (proj2 (rltb_false (IZR z) (IZR lo))) by lra; apply rtrunc_IZR.
Qed.
