(** GaussProofs.v - facts about the Gaussian figures and imgaussfilt. *)
From Coq Require Import Reals Lra ZifyBool ZifyNat.
From Verif Require Import Base ImageModel ImageFacts IndexModel ImageProofs GeomModel GeomProofs PadProofs CropProofs PixelModel PixelProofs
  BigSum RSum ConvModel ConvProofs TextProofs FourierProofs PropPixel GaussModel.
Open Scope nat_scope.
Ltac Zify.zify_post_hook ::= Z.div_mod_to_equations.

(** ** sums of images *)
(** the pixel vector of an image, row by row *)
Lemma pix_Repr {A} (im : image A) w h f : Repr im w h f -> pix im = map (fun p => f (snd p) (fst p)) (grid h w).
Proof.
  intros (D & L & H); rewrite grid_seq, map_map; apply nth_error_ext_len.
  - rewrite map_length, L, seq_length; lia.
  - intros k Hk.
    destruct (Nat.eq_dec w 0) as [Ew|Nw]; [subst; lia|].
    pose proof (Nat.div_mod k w Nw) as Dk; pose proof (Nat.mod_upper_bound k w Nw).
    assert (k / w < h) by (apply Nat.div_lt_upper_bound; lia).
    replace k with (k / w * w + k mod w) at 1 by lia.
    rewrite H by lia; symmetry; rewrite nth_error_map, nth_error_seq by lia; reflexivity.
Qed.

Lemma total_Repr im w h f : Repr im w h f -> total im = rsum (fun y => rsum (fun x => f x y) (seq 0 w)) (seq 0 h).
Proof.
  intros R; unfold total; rewrite (pix_Repr _ _ _ _ R), fold_left_map; rewrite <- (rsum_grid (fun p => f (snd p) (fst p))); reflexivity.
Qed.

Lemma divides_scalar_Repr (div : R -> R -> R) k x w h f : Repr x w h f -> 0 < w -> 0 < h ->
  exists o, divides_scalar div k x = Ok o /\ Repr o w h (fun a b => div (f a b) k).
Proof.
  intros Rx Pw Ph; apply Repr_ReprN in Rx.
  destruct (C71_divides_scalar R div k x _ _ Rx) as (o & E & Ro); [rewrite prodn2; nia|].
  exists o; split; auto; apply Repr_ReprN; exact Ro.
Qed.

(** ** the one-dimensional figure *)
(** its value at index [x], and the sum of the values *)
Definition bell (center : nat) (sd : R) (x : nat) : R := exp (- ((INR x - INR center) * (INR x - INR center)) / (2 * sd * sd)).
Definition bell_sum (size center : nat) (sd : R) : R := rsum (bell center sd) (seq 0 size).

Lemma normal1d_bell center sd x : normal1d (INR x - INR center) sd = bell center sd x.
Proof. unfold normal1d, bell; f_equal; unfold Rdiv; ring. Qed.

Lemma bell_pos center sd x : (0 < bell center sd x)%R.
Proof. apply exp_pos. Qed.

Lemma rsum_pos {I} (f : I -> R) l : l <> [] -> (forall i, In i l -> 0 < f i)%R -> (0 < rsum f l)%R.
Proof.
  intros N H; destruct l as [|i l]; [congruence|]; rewrite rsum_cons.
  pose proof (H i (or_introl eq_refl)); pose proof (rsum_nonneg f l (fun j Hj => Rlt_le _ _ (H j (or_intror Hj)))); lra.
Qed.

Lemma bell_sum_pos size center sd : 0 < size -> (0 < bell_sum size center sd)%R.
Proof.
  intros P; apply rsum_pos; [destruct size; [lia | discriminate]|]; intros; apply bell_pos.
Qed.

Lemma rsum_snoc (f : nat -> R) n : rsum f (seq 0 (S n)) = (rsum f (seq 0 n) + f n)%R.
Proof. unfold bsum; rewrite seq_S, fold_left_app; reflexivity. Qed.

Lemma figure1d_Repr size center sd normalize : 0 < size ->
  exists o, gaussian_figure1d size center sd normalize = Ok o /\
    Repr o size 1 (fun x _ => if normalize then (bell center sd x / bell_sum size center sd)%R else bell center sd x).
Proof.
  intros P; unfold gaussian_figure1d.
  destruct (for_range_inv size (fun i st =>
      Repr (fst st) size 1 (fun x _ => if x <? i then bell center sd x else 0%R) /\ snd st = rsum (bell center sd) (seq 0 i))
    (fun x st => let* r := at_set (fst st) [x; 0] (normal1d (INR x - INR center) sd) in
       Ok (r, (snd st + normal1d (INR x - INR center) sd)%R)) (image_sizes 0%R [size; 1], 0%R)) as ((o & v) & E & Ro & Ev).
  - split; [|reflexivity]; eapply Repr_ext; [apply (Repr_sizes 0%R size 1)|]; reflexivity.
  - intros i (o & v) Hi (Ro & Ev); cbn [fst snd] in *.
    destruct (at_set_Repr o size 1 _ i 0 (normal1d (INR i - INR center) sd) Ro) as (o' & E' & Ro'); try lia.
    rewrite E'; cbn [bind]; eexists; split; [reflexivity|]; cbn [fst snd]; split.
    + eapply Repr_ext; [exact Ro'|]; intros x y Hx Hy; cbv beta; rewrite normal1d_bell.
      destruct (Nat.eqb_spec x i) as [->|N]; cbn [andb].
      * replace (y =? 0) with true by lia; replace (i <? S i) with true by lia; reflexivity.
      * replace (x <? S i) with (x <? i) by lia; reflexivity.
    + rewrite rsum_snoc, normal1d_bell, Ev; reflexivity.
  - cbv zeta; rewrite E; cbn [bind fst snd] in *.
    assert (Rb : Repr o size 1 (fun x _ => bell center sd x)).
    { eapply Repr_ext; [exact Ro|]; intros x y Hx Hy; cbv beta; replace (x <? size) with true by lia; reflexivity. }
    destruct normalize; [|exists o; auto].
    subst v; apply divides_scalar_Repr; auto; lia.
Qed.

(** ** the two-dimensional figures *)
Lemma figure2d_Repr xs ys cx cy sx sy normalize : 0 < xs -> 0 < ys ->
  exists o, gaussian_figure2d xs ys cx cy sx sy normalize = Ok o /\
    Repr o xs ys (fun x y => if normalize then (bell cx sx x * bell cy sy y / (bell_sum xs cx sx * bell_sum ys cy sy))%R
                             else (bell cx sx x * bell cy sy y)%R).
Proof.
  intros Px Py; unfold gaussian_figure2d.
  destruct (figure1d_Repr xs cx sx false Px) as (vx & Ex & Rx); destruct (figure1d_Repr ys cy sy false Py) as (vy & Ey & Ry).
  rewrite Ex, Ey; cbn [bind].
  set (F := fun x y => (bell cx sx x * bell cy sy y)%R).
  destruct (for_range_inv ys (fun j st =>
      Repr (fst st) xs ys (fun x y => if y <? j then F x y else 0%R) /\ snd st = rsum (fun y => rsum (fun x => F x y) (seq 0 xs)) (seq 0 j))
    (fun y st => for_range xs (fun x st =>
      let* a := at_ vx [x; 0] in let* b := at_ vy [y; 0] in
      let* r := at_set (fst st) [x; y] (a * b)%R in Ok (r, (snd st + a * b)%R)) st) (image_sizes 0%R [xs; ys], 0%R)) as ((o & v) & E & Ro & Ev).
  - split; [|reflexivity]; eapply Repr_ext; [apply (Repr_sizes 0%R xs ys)|]; reflexivity.
  - intros j (o & v) Hj (Ro & Ev); cbn [fst snd] in *.
    destruct (for_range_inv xs (fun i st =>
        Repr (fst st) xs ys (fun x y => if (y <? j) || ((y =? j) && (x <? i)) then F x y else 0%R) /\ snd st = (v + rsum (fun x => F x j) (seq 0 i))%R)
      (fun x st => let* a := at_ vx [x; 0] in let* b := at_ vy [j; 0] in
        let* r := at_set (fst st) [x; j] (a * b)%R in Ok (r, (snd st + a * b)%R)) (o, v)) as ((o' & v') & E' & Ro' & Ev').
    + cbn [fst snd]; split; [|unfold bsum; cbn; lra]; eapply Repr_ext; [exact Ro|]; intros x y Hx Hy; cbv beta.
      replace (x <? 0) with false by lia; rewrite andb_false_r, orb_false_r; reflexivity.
    + intros i (o1 & v1) Hi (Ro1 & Ev1); cbn [fst snd] in *.
      rewrite (at_Repr _ _ _ _ i 0 Rx), (at_Repr _ _ _ _ j 0 Ry) by lia; cbn [bind].
      destruct (at_set_Repr o1 xs ys _ i j (bell cx sx i * bell cy sy j)%R Ro1) as (o2 & E2 & Ro2); try lia.
      rewrite E2; cbn [bind]; eexists; split; [reflexivity|]; cbn [fst snd]; split.
      * eapply Repr_ext; [exact Ro2|]; intros x y Hx Hy; cbv beta; fold (F i j).
        destruct (Nat.eqb_spec x i) as [->|N], (Nat.eqb_spec y j) as [->|M]; cbn [andb].
        -- replace (j <? j) with false by lia; replace (i <? S i) with true by lia; reflexivity.
        -- reflexivity.
        -- replace (x <? S i) with (x <? i) by lia; reflexivity.
        -- reflexivity.
      * rewrite rsum_snoc, Ev1; unfold F; lra.
    + exists (o', v'); split; [exact E'|]; cbn [fst snd] in *; split.
      * eapply Repr_ext; [exact Ro'|]; intros x y Hx Hy; cbv beta; replace (x <? xs) with true by lia; rewrite andb_true_r.
        replace ((y <? j) || (y =? j)) with (y <? S j) by lia; reflexivity.
      * rewrite rsum_snoc, Ev', Ev; reflexivity.
  - rewrite E; cbn [bind fst snd] in *.
    assert (Rb : Repr o xs ys F).
    { eapply Repr_ext; [exact Ro|]; intros x y Hx Hy; cbv beta; replace (y <? ys) with true by lia; reflexivity. }
    destruct normalize; [|exists o; auto].
    destruct (divides_scalar_Repr Rdiv v o xs ys F Rb Px Py) as (o' & E' & Ro'); exists o'; split; auto.
    eapply Repr_ext; [exact Ro'|]; intros x y _ _; cbv beta; unfold F; f_equal; rewrite Ev.
    unfold bell_sum; rewrite (Rmult_comm (rsum _ _)), rsum_mul; apply rsum_ext; intros b _; apply rsum_ext; intros a _; unfold F; lra.
Qed.

Lemma elliptic_Repr sg xs ys cx cy s1 s2 rho factor : sched_ok sg ->
  exists o, gaussian_figure2d_elliptic sg xs ys cx cy s1 s2 rho factor = Ok o /\
    Repr o xs ys (fun x y => elliptic_value s1 s2 rho factor (INR x - INR cx) (INR y - INR cy)).
Proof.
  intros Hs; unfold gaussian_figure2d_elliptic; apply fill_grid2; auto.
  intros y x s Hy Hx D L; cbn [fst snd]; rewrite (at_set_ok s [xs; ys]); auto; [rewrite off2; reflexivity | rewrite prodn2; auto | apply in_range2; auto].
Qed.

(** ** the padded picture as a function on the plane *)
Definition extend (bc : boundary) (w h : nat) (f : nat -> nat -> R) (c : R) (x y : Z) : R :=
  match bc with
  | BConstant => if (0 <=? x)%Z && (x <? Z.of_nat w)%Z && ((0 <=? y)%Z && (y <? Z.of_nat h)%Z) then f (Z.to_nat x) (Z.to_nat y) else c
  | BMirror => f (Z.to_nat (reflectZ (Z.of_nat w) x)) (Z.to_nat (reflectZ (Z.of_nat h) y))
  | BReplicate => f (Z.to_nat (clampZ (Z.of_nat w) x)) (Z.to_nat (clampZ (Z.of_nat h) y))
  end.

Lemma padded_Repr sg im w h f we he bc c :
  sched_ok sg -> Repr im w h f -> 0 < w -> 0 < h -> fits (w + 2 * we) -> fits (h + 2 * he) ->
  (bc = BMirror -> we < w /\ he < h) ->
  exists o, padded_image 0%R sg im we he bc c = Ok o /\
    Repr o (w + 2 * we) (h + 2 * he) (fun x y => extend bc w h f c (Z.of_nat x - Z.of_nat we) (Z.of_nat y - Z.of_nat he)).
Proof.
  intros Hs R Pw Ph Fw Fh HM; destruct bc; cbn [padded_image].
  - destruct (constant_padding_Repr 0%R im w h f we he c R Fw Fh) as (o & E & Ro); exists o; split; auto.
    eapply Repr_ext; [exact Ro|]; intros x y Hx Hy; cbv beta; unfold extend, inrect.
    match goal with |- (if ?a then _ else _) = (if ?b then _ else _) => replace b with a by lia; destruct a eqn:Ea end; auto; f_equal; lia.
  - destruct (HM eq_refl) as [Lw Lh].
    destruct (mirror_padding_Repr 0%R sg Hs im w h f we he c R Lw Lh Fw Fh) as (o & E & Ro); exists o; split; auto.
  - destruct (replicate_padding_Repr 0%R sg Hs im w h f we he c R Pw Ph Fw Fh) as (o & E & Ro); exists o; split; auto.
Qed.

(** ** the two convolutions *)
Lemma conv_row f g W H n X Y : n <= X + 1 -> X < W -> Y < H ->
  rsum (conv_term 0%R Rmult f g n 1 X Y) (grid H W) = rsum (fun i => (g i 0%nat * f (X - i)%nat Y)%R) (seq 0 n).
Proof.
  intros Hn HX HY; rewrite (conv_sum_swap 0%R Rplus Rmult Rmult f g W H n 1 X Y r0r rC rA Rmult_comm), rsum_grid.
  rewrite (rsum_single _ 1 0) by lia; apply rsum_ext; intros i Hi; apply in_seq in Hi; unfold conv_term.
  match goal with |- (if ?c then _ else _) = _ => replace c with true by lia end; rewrite Nat.sub_0_r; reflexivity.
Qed.
Lemma conv_col f g W H n X Y : n <= Y + 1 -> X < W -> Y < H ->
  rsum (conv_term 0%R Rmult f g 1 n X Y) (grid H W) = rsum (fun j => (g 0%nat j * f X (Y - j)%nat)%R) (seq 0 n).
Proof.
  intros Hn HX HY; rewrite (conv_sum_swap 0%R Rplus Rmult Rmult f g W H 1 n X Y r0r rC rA Rmult_comm), rsum_grid.
  apply rsum_ext; intros j Hj; apply in_seq in Hj; rewrite (rsum_single _ 1 0) by lia; unfold conv_term.
  match goal with |- (if ?c then _ else _) = _ => replace c with true by lia end; rewrite Nat.sub_0_r; reflexivity.
Qed.

(** weight number [i] of a mask of [n] entries *)
Definition weight (n : nat) (sd : R) (i : nat) : R := (bell ((n + 1) / 2) sd i / bell_sum n ((n + 1) / 2) sd)%R.

Lemma weight_pos n sd i : 0 < n -> (0 < weight n sd i)%R.
Proof. intros P; apply Rdiv_lt_0_compat; [apply bell_pos | apply bell_sum_pos; auto]. Qed.
Lemma weight_sum n sd : 0 < n -> rsum (weight n sd) (seq 0 n) = 1%R.
Proof.
  intros P; unfold weight, Rdiv; erewrite rsum_ext; [|intros i _; apply Rmult_comm]; rewrite rsum_scale.
  apply Rinv_l, Rgt_not_eq, bell_sum_pos; auto.
Qed.

(** where the window of the result lies: the offset of the 'same size' part of a convolution *)
Definition shift (w n : nat) : nat := (w + 2 * n + n - 1) / 2 - (w + 2 * n) / 2.

Lemma imgaussfilt2_Repr sg s im w h f s1 s2 n1 n2 bc c :
  sched_ok sg -> sched1_ok s -> Repr im w h f -> 0 < w -> 0 < h -> 0 < n1 -> 0 < n2 ->
  (Z.of_nat (w + 3 * n1) <= 2 ^ 62)%Z -> (Z.of_nat (h + 3 * n2) <= 2 ^ 62)%Z ->
  (bc = BMirror -> n1 < w /\ n2 < h) ->
  exists o, imgaussfilt2 sg s im s1 s2 n1 n2 bc c = Ok o /\
    Repr o w h (fun X Y => rsum (fun j => rsum (fun i => (weight n2 s2 j * (weight n1 s1 i *
      extend bc w h f c (Z.of_nat X + Z.of_nat (shift w n1) - Z.of_nat i)%Z (Z.of_nat Y + Z.of_nat (shift h n2) - Z.of_nat j)%Z))%R)
      (seq 0 n1)) (seq 0 n2)).
Proof.
  intros Hg Hs R Pw Ph P1 P2 Fw Fh HM; unfold imgaussfilt2; rewrite (check2d_Repr _ _ _ _ R); cbn [bind].
  destruct (padded_Repr sg im w h f n1 n2 bc c) as (pad & Ep & Rp); auto; try (unfold fits, two64; lia).
  rewrite Ep; cbn [bind].
  set (P := fun x y : nat => extend bc w h f c (Z.of_nat x - Z.of_nat n1) (Z.of_nat y - Z.of_nat n2)) in *.
  destruct (figure1d_Repr n1 ((n1 + 1) / 2) s1 false P1) as (fx & Ex & Rx); rewrite Ex; cbn [bind].
  assert (Tx : total fx = bell_sum n1 ((n1 + 1) / 2) s1).
  { rewrite (total_Repr _ _ _ _ Rx), (rsum_single _ 1 0) by lia; reflexivity. }
  destruct (divides_scalar_Repr Rdiv (total fx) fx _ _ _ Rx P1) as (mx & Emx & Rmx); [lia|]; rewrite Emx; cbn [bind].
  destruct (conv2_same_Repr 0%R Rplus Rmult r0r s pad mx _ _ _ _ _ _ Hs Rp Rmx) as (o1 & E1 & R1); try lia.
  rewrite E1; cbn [bind].
  destruct (figure1d_Repr n2 ((n2 + 1) / 2) s2 false P2) as (fy & Ey & Ry); rewrite Ey; cbn [bind].
  destruct (transpose_policy_Repr 0%R sg Hg fy _ _ _ Ry) as (ty & Et & Rt); rewrite Et; cbn [bind].
  assert (Ty : total ty = bell_sum n2 ((n2 + 1) / 2) s2).
  { rewrite (total_Repr _ _ _ _ Rt); unfold bell_sum; apply rsum_ext; intros j _; rewrite (rsum_single _ 1 0) by lia; reflexivity. }
  destruct (divides_scalar_Repr Rdiv (total ty) ty _ _ _ Rt) as (my & Emy & Rmy); try lia; rewrite Emy; cbn [bind].
  destruct (conv2_same_Repr 0%R Rplus Rmult r0r s o1 my _ _ _ _ _ _ Hs R1 Rmy) as (o2 & E2 & R2); try lia.
  rewrite E2; cbn [bind].
  rewrite (get_width_Repr _ _ _ _ R), (get_height_Repr _ _ _ _ R); cbn [bind].
  rewrite (get_width_Repr _ _ _ _ R2), (get_height_Repr _ _ _ _ R2); cbn [bind].
  destruct (subimage_Repr 0%R o2 _ _ _ w h ((w + 2 * n1) / 2) ((h + 2 * n2) / 2) 0%R R2 Pw Ph) as (o & E & Ro);
    try (unfold fits, two64; lia).
  exists o; split; auto; eapply Repr_ext; [exact Ro|]; clear Ro E; intros X Y HX HY; cbv beta zeta.
  assert (Cx : crop_pos ((w + 2 * n1) / 2) w X = Z.of_nat (X + n1)) by (unfold crop_pos; lia).
  assert (Cy : crop_pos ((h + 2 * n2) / 2) h Y = Z.of_nat (Y + n2)) by (unfold crop_pos; lia).
  rewrite Cx, Cy, !Nat2Z.id.
  match goal with |- (if ?c then _ else _) = _ => replace c with true by lia end.
  replace ((w + 2 * n1 + 1 - 1) / 2 - (w + 2 * n1) / 2) with 0 by lia.
  replace ((h + 2 * n2 + 1 - 1) / 2 - (h + 2 * n2) / 2) with 0 by lia.
  rewrite !Nat.add_0_r; fold (shift w n1) (shift h n2).
  assert (Sw : shift w n1 <= n1 / 2) by (unfold shift; lia); assert (Sh : shift h n2 <= n2 / 2) by (unfold shift; lia).
  rewrite conv_col by lia; apply rsum_ext; intros j Hj; apply in_seq in Hj.
  rewrite Ty; fold (weight n2 s2 j); rewrite Nat.add_0_r, conv_row by lia; rewrite rsum_scale; f_equal.
  apply rsum_ext; intros i Hi; apply in_seq in Hi; rewrite Tx; fold (weight n1 s1 i); f_equal; unfold P; f_equal; lia.
Qed.
