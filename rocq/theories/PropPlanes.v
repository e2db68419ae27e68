(** PropPlanes.v - C179: colour pictures are turned, seen through the lens and smoothed plane by plane, and angles may be given in degrees. *)
From Coq Require Import Reals Lra ZArith Lia ZifyBool ZifyNat.
From Verif Require Import Base ImageModel ImageFacts GeomModel GeomProofs OField JacobiModel SiftModel SiftProofs PixelModel PixelProofs WindowProofs
  PropBmp ColourProofs TurnModel TurnProofs FisheyeModel FisheyeProofs PropTurn ConvModel BilateralModel BilateralProofs PropBilateral PlanesModel.
From Coq Require Import Rdefinitions.
Open Scope nat_scope.

(** [p] is channel [k] of the colours [f] *)
Definition channel_of {A} (d : A) (w h : nat) (f : nat -> nat -> list A) (k : nat) (p : image A) : Prop :=
  Repr p w h (fun x y => nth k (f x y) d).

(** an operation that gives every channel a picture of the same size gives the colour picture of these pictures *)
Theorem C179_planes {A B} s (d1 : A) (d : list B) (op : image A -> res (image B)) (im : image (list A)) w h f w' h' (G : nat -> nat -> nat -> B) :
  sched1_ok s -> Repr im w h f -> 0 < w -> 0 < h -> 0 < w' -> 0 < h' -> (forall x y, x < w -> y < h -> length (f x y) = 3) ->
  (forall k p, k < 3 -> channel_of d1 w h f k p -> exists o, op p = Ok o /\ Repr o w' h' (G k)) ->
  exists o, apply_each3 s d1 d op im = Ok o /\ Repr o w' h' (fun x y => [G 0 x y; G 1 x y; G 2 x y]).
Proof.
  intros Hs R Pw Ph Pw' Ph' L HO.
  destruct (apply_each3_ReprN s d1 d op im [w; h] (fun q => f (nth 0 q 0) (nth 1 q 0)) (fun k q => G k (nth 0 q 0) (nth 1 q 0)) Hs) with (ds' := [w'; h']) as (o & E & Ro).
  - apply Repr_ReprN in R; eapply ReprN_ext; [exact R|]; intros [|x [|y [|z q]]] I; try (apply in_range_length in I; simpl in I; lia); reflexivity.
  - rewrite prodn2; nia.
  - intros [|x [|y [|z q]]] I; try (apply in_range_length in I; simpl in I; lia); apply in_range2 in I; cbn [nth]; apply L; lia.
  - rewrite prodn2; nia.
  - intros k p Hk (g & Rg & Hg); destruct (HO k p Hk) as (o & Eo & Ro).
    + apply Repr_ReprN; eapply ReprN_ext; [exact Rg|]; intros q I; symmetry; specialize (Hg q I).
      destruct q as [|x [|y [|z q]]]; try (apply in_range_length in I; simpl in I; lia); cbn [nth] in *; apply nth_error_nth, Hg.
    + exists o; split; auto; apply Repr_ReprN in Ro; eapply ReprN_ext; [exact Ro|].
      intros [|x [|y [|z q]]] I; try (apply in_range_length in I; simpl in I; lia); reflexivity.
  - exists o; split; auto; apply Repr_ReprN; eapply ReprN_ext; [exact Ro|].
    intros [|x [|y [|z q]]] I; try (apply in_range_length in I; simpl in I; lia); reflexivity.
Qed.
Print Assumptions C179_planes.

(** the same for pixels of any number of channels *)
Theorem C179_planes_multichannel {A B} s n (d1 : A) (d : list B) (op : image A -> res (image B)) (im : image (list A)) w h f w' h' (G : nat -> nat -> nat -> B) :
  sched1_ok s -> 0 < n -> Repr im w h f -> 0 < w -> 0 < h -> 0 < w' -> 0 < h' -> (forall x y, x < w -> y < h -> length (f x y) = n) ->
  (forall k p, k < n -> channel_of d1 w h f k p -> exists o, op p = Ok o /\ Repr o w' h' (G k)) ->
  exists o, apply_each_mc s n d1 d op im = Ok o /\ Repr o w' h' (fun x y => map (fun k => G k x y) (seq 0 n)).
Proof.
  intros Hs Hn R Pw Ph Pw' Ph' L HO; unfold apply_each_mc.
  apply Repr_ReprN in R.
  assert (L' : forall q, in_range [w; h] q -> length (f (nth 0 q 0) (nth 1 q 0)) = n).
  { intros [|x [|y [|z q]]] I; try (apply in_range_length in I; simpl in I; lia); apply in_range2 in I; cbn [nth]; apply L; lia. }
  assert (M : forall k, k < n -> exists o, (let* p := get_plane_mc s d1 n im k in op p) = Ok o /\ ReprN o [w'; h'] (fun q => G k (nth 0 q 0) (nth 1 q 0))).
  { intros k Hk; unfold get_plane_mc; destruct (Nat.leb_spec n k); [lia|].
    destruct (get_plane_ReprN s Hs d1 im [w; h] _ k (fun q => nth k (f (nth 0 q 0) (nth 1 q 0)) d1) R) as (p & E & Rp).
    - rewrite prodn2; nia.
    - intros q Hq; specialize (L' q Hq); destruct q as [|x [|y [|z q]]]; try (apply in_range_length in Hq; simpl in Hq; lia); cbn [nth] in *; apply nth_error_nth'; lia.
    - rewrite E; cbn [bind]; destruct (HO k p Hk) as (o & Eo & Ro); [apply Repr_ReprN; eapply ReprN_ext; [exact Rp|];
        intros [|x [|y [|z q]]] I; try (apply in_range_length in I; simpl in I; lia); reflexivity|].
      exists o; split; auto; apply Repr_ReprN in Ro; eapply ReprN_ext; [exact Ro|].
      intros [|x [|y [|z q]]] I; try (apply in_range_length in I; simpl in I; lia); reflexivity. }
  assert (F : forall ks, (forall k, In k ks -> k < n) -> exists ps, mapM (fun k => let* p := get_plane_mc s d1 n im k in op p) ks = Ok ps
    /\ Forall2 (fun p g => ReprN p [w'; h'] g) ps (map (fun k q => G k (nth 0 q 0) (nth 1 q 0)) ks)).
  { induction ks as [|k ks IH]; intros Hk; [exists []; split; [reflexivity | constructor]|].
    destruct (M k) as (o & E & Ro); [apply Hk; left; reflexivity|]; destruct IH as (ps & Ep & Fp); [intros j Hj; apply Hk; right; exact Hj|].
    exists (o :: ps); cbn [mapM map]; rewrite E; cbn [bind]; rewrite Ep; cbn [bind]; split; [reflexivity | constructor; auto]. }
  destruct (F (seq 0 n)) as (ps & Ep & Fp); [intros k Hk; apply in_seq in Hk; lia|]; rewrite Ep; cbn [bind].
  destruct (construct_multichannel_ReprN s Hs d ps _ [w'; h'] Fp) as (o & E & Ro); [intros ->; destruct n; [lia | inversion Fp] | rewrite prodn2; nia |].
  exists o; split; [exact E|]; apply Repr_ReprN; eapply ReprN_ext; [exact Ro|].
  intros [|x [|y [|z q]]] I; try (apply in_range_length in I; simpl in I; lia); cbv beta; rewrite map_map; reflexivity.
Qed.
Print Assumptions C179_planes_multichannel.

(** the inverse lens: every channel of every pixel is the channel of the pixel seen there *)
Theorem C179_lens {A} (d : A) s sg im w h f D0 : sched1_ok s -> sched_ok sg -> Repr im w h f -> (forall x y, x < w -> y < h -> length (f x y) = 3) ->
  0 < w -> 0 < h -> (Z.of_nat w < 2 ^ 64)%Z -> (Z.of_nat h < 2 ^ 64)%Z -> (0 < D0)%R -> (D0 <= INR w / 2)%R -> (D0 <= INR h / 2)%R ->
  exists o g, gaussian_fisheye3 d s sg im D0 = Ok o /\ Repr o w h g /\
    forall x y, x < w -> y < h -> length (g x y) = 3 /\ seen_through D0 w h f [d; d; d] x y (g x y).
Proof.
  intros Hs Hg R L Pw Ph Fw Fh P Dw Dh; unfold gaussian_fisheye3; rewrite (check2d_Repr _ _ _ _ R); cbn [bind].
  pose (F := fun k x y => match fe_value D0 w h (fun x y => nth k (f x y) d) x y with Some v => v | None => d end).
  destruct (C179_planes s d [d; d; d] (fun plane => gaussian_fisheye d sg inverse_root plane D0) im w h f w h F) as (o & E & Ro); auto.
  - intros k p Hk Hp; apply (gaussian_fisheye_ok d sg p w h _ D0 Hg Hp P Dw Dh Fw Fh).
  - exists o, (fun x y => match fe_value D0 w h f x y with Some v => v | None => [d; d; d] end); split; [exact E|].
    assert (L3 : forall x y, x < w -> y < h -> length (match fe_value D0 w h f x y with Some v => v | None => [d; d; d] end) = 3).
    { intros x y Hx Hy; unfold fe_value; destruct (fe_source D0 w h x y) as (i, j); destruct ((i <? w) && (j <? h)) eqn:B; [apply L; lia|reflexivity]. }
    split.
    + eapply Repr_ext; [exact Ro|]; intros x y Hx Hy; specialize (L3 x y Hx Hy); unfold F, fe_value in *; destruct (fe_source D0 w h x y) as (i, j); destruct ((i <? w) && (j <? h)); [|reflexivity];
      apply length3 in L3; destruct L3 as (a & b & c & ->); reflexivity.
    + intros x y Hx Hy; split; [auto|]; apply fe_value_seen; auto.
Qed.
Print Assumptions C179_lens.

Theorem C179_lens_not_2d {A} (d : A) s sg (im : image (list A)) D0 : length (dims im) <> 2 -> gaussian_fisheye3 d s sg im D0 = Throw RuntimeError.
Proof. intros H; unfold gaussian_fisheye3; rewrite check2d_not2 by auto; reflexivity. Qed.
Print Assumptions C179_lens_not_2d.

(** an integral radius is that radius *)
Theorem C179_lens_integral {A} (d : A) sg im w h f D0 : sched_ok sg -> Repr im w h f -> (Z.of_nat w < 2 ^ 64)%Z -> (Z.of_nat h < 2 ^ 64)%Z ->
  (0 < D0)%Z -> (2 * D0 <= Z.of_nat w)%Z -> (2 * D0 <= Z.of_nat h)%Z ->
  exists o g, gaussian_fisheye_int d sg im D0 = Ok o /\ Repr o w h g /\ forall x y, x < w -> y < h -> seen_through (IZR D0) w h f d x y (g x y).
Proof.
  intros Hg R Fw Fh P Dw Dh; unfold gaussian_fisheye_int; rewrite (check2d_Repr _ _ _ _ R); cbn [bind].
  assert (P' : (0 < IZR D0)%R) by (apply IZR_lt; auto).
  assert (Dw' : (IZR D0 <= INR w / 2)%R) by (apply IZR_le in Dw; rewrite mult_IZR, <- INR_IZR_INZ in Dw; lra).
  assert (Dh' : (IZR D0 <= INR h / 2)%R) by (apply IZR_le in Dh; rewrite mult_IZR, <- INR_IZR_INZ in Dh; lra).
  destruct (gaussian_fisheye_ok d sg im w h f (IZR D0) Hg R P' Dw' Dh' Fw Fh) as (o & E & Ro).
  exists o; eexists; split; [exact E|]; split; [exact Ro|]; intros; apply fe_value_seen; auto.
Qed.
Print Assumptions C179_lens_integral.

(** ** the turn *)
(** what the interpolator must do on the channels of a picture: give a value everywhere, and the sample at a sample *)
Definition interpolates {A} (interp : image A -> R -> R -> res A) (w h : nat) (p : image A) (g : nat -> nat -> A) : Prop :=
  exists val, (forall x y, interp p x y = Ok (val x y)) /\ forall x y, x < w -> y < h -> val (INR x) (INR y) = g x y.

(** the picture of a channel *)
Definition channel {A} (d : A) (w h : nat) (f : nat -> nat -> list A) (k : nat) : image A := picture w h (fun x y => nth k (f x y) d).

Lemma channel_unique {A} (d : A) w h f k p : channel_of d w h f k p -> p = channel d w h f k.
Proof. intros H; apply (Repr_unique _ _ w h _ _ H (picture_Repr w h _)); auto. Qed.

Lemma size_positive a b r n : 0 < a -> 0 < b -> rounded_up n (INR a * Rabs (cos r) + INR b * Rabs (sin r)) -> 0 < n.
Proof.
  intros Pa Pb (_ & H); apply lt_INR in Pa, Pb; cbn [INR] in *.
  destruct (Nat.eq_0_gt_0_cases n) as [->|]; auto; cbn [INR] in H; exfalso.
  pose proof (sin2_cos2 r) as T; unfold Rsqr in T; pose proof (Rabs_pos (cos r)) as C; pose proof (Rabs_pos (sin r)) as S.
  assert (Rabs (cos r) = 0)%R by nra; assert (Rabs (sin r) = 0)%R by nra.
  assert (cos r = 0)%R by (destruct (Req_dec (cos r) 0); auto; exfalso; apply (Rabs_no_R0 (cos r)); auto).
  assert (sin r = 0)%R by (destruct (Req_dec (sin r) 0); auto; exfalso; apply (Rabs_no_R0 (sin r)); auto).
  rewrite H2, H3 in T; lra.
Qed.

(** every channel of the turned colour picture is, at one and the same place, the interpolated value of that channel *)
Theorem C179_turned {A} (d : A) interp s im w h f r : sched1_ok s -> Repr im w h f -> (forall x y, x < w -> y < h -> length (f x y) = 3) ->
  0 < w -> 0 < h -> (Z.of_nat (w + h) < 2 ^ 64)%Z ->
  (forall k, k < 3 -> interpolates interp w h (channel d w h f k) (fun x y => nth k (f x y) d)) ->
  exists nw nh o g, rotate_shear3 d (PI / 2) interp s im r = Ok o /\ Repr o nw nh g /\
    rounded_up nw (INR w * Rabs (cos r) + INR h * Rabs (sin r)) /\ rounded_up nh (INR h * Rabs (cos r) + INR w * Rabs (sin r)) /\
    forall i j, i < nw -> j < nh -> length (g i j) = 3 /\
      exists px py, turned_to w h nw nh r px py (INR i) (INR j) /\ forall k, k < 3 -> interp (channel d w h f k) px py = Ok (nth k (g i j) d).
Proof.
  intros Hs R L Pw Ph F HI.
  destruct (HI 0 ltac:(lia)) as (v0 & V0 & X0); destruct (HI 1 ltac:(lia)) as (v1 & V1 & X1); destruct (HI 2 ltac:(lia)) as (v2 & V2 & X2).
  destruct (rotate_shear_all d interp _ w h _ r v0 (picture_Repr w h _) F V0 X0) as (nw & nh & o0 & E0 & Cw & Ch & R0).
  destruct (rotate_shear_all d interp _ w h _ r v1 (picture_Repr w h _) F V1 X1) as (nw1 & nh1 & o1 & E1 & Cw1 & Ch1 & R1).
  destruct (rotate_shear_all d interp _ w h _ r v2 (picture_Repr w h _) F V2 X2) as (nw2 & nh2 & o2 & E2 & Cw2 & Ch2 & R2).
  assert (nw1 = nw) as -> by (apply (ceiling_unique _ _ _ Cw1 Cw)); assert (nh1 = nh) as -> by (apply (ceiling_unique _ _ _ Ch1 Ch)).
  assert (nw2 = nw) as -> by (apply (ceiling_unique _ _ _ Cw2 Cw)); assert (nh2 = nh) as -> by (apply (ceiling_unique _ _ _ Ch2 Ch)).
  unfold rotate_shear3; rewrite (check2d_Repr _ _ _ _ R); cbn [bind].
  pose (val := fun k => match k with 0 => v0 | 1 => v1 | _ => v2 end).
  destruct (C179_planes s d [d; d; d] (fun plane => rotate_shear d (PI / 2) interp plane r) im w h f nw nh
     (fun k i j => val k (source_x w nw nh r i j) (source_y h nw nh r i j))) as (o & E & Ro); auto.
  - apply (size_positive w h r); auto.
  - apply (size_positive h w r); auto.
  - intros k p Hk Hp; rewrite (channel_unique _ _ _ _ _ _ Hp); destruct k as [|[|[|k]]]; [exists o0 | exists o1 | exists o2 | lia]; auto.
  - exists nw, nh, o; eexists; split; [exact E|]; split; [exact Ro|]; split; auto; split; auto.
    intros i j Hi Hj; split; [reflexivity|]; do 2 eexists; split; [apply source_turned|].
    intros [|[|[|k]]] Hk; [apply V0 | apply V1 | apply V2 | lia].
Qed.
Print Assumptions C179_turned.

Theorem C179_turned_multichannel {A} (d : A) interp s n im w h f r : sched1_ok s -> 0 < n -> Repr im w h f -> (forall x y, x < w -> y < h -> length (f x y) = n) ->
  0 < w -> 0 < h -> (Z.of_nat (w + h) < 2 ^ 64)%Z ->
  (forall k, k < n -> interpolates interp w h (channel d w h f k) (fun x y => nth k (f x y) d)) ->
  exists nw nh o g, rotate_shear_mc d (PI / 2) interp s n im r = Ok o /\ Repr o nw nh g /\
    rounded_up nw (INR w * Rabs (cos r) + INR h * Rabs (sin r)) /\ rounded_up nh (INR h * Rabs (cos r) + INR w * Rabs (sin r)) /\
    forall i j, i < nw -> j < nh -> length (g i j) = n /\
      exists px py, turned_to w h nw nh r px py (INR i) (INR j) /\ forall k, k < n -> interp (channel d w h f k) px py = Ok (nth k (g i j) d).
Proof.
  intros Hs Hn R L Pw Ph F HI.
  destruct (HI 0 Hn) as (v0 & V0 & X0).
  destruct (rotate_shear_all d interp _ w h _ r v0 (picture_Repr w h _) F V0 X0) as (nw & nh & o0 & E0 & Cw & Ch & R0).
  unfold rotate_shear_mc; rewrite (check2d_Repr _ _ _ _ R); cbn [bind].
  pose (val := fun k x y => match interp (channel d w h f k) x y with Ok v => v | _ => d end).
  destruct (C179_planes_multichannel s n d (repeat d n) (fun plane => rotate_shear d (PI / 2) interp plane r) im w h f nw nh
     (fun k i j => val k (source_x w nw nh r i j) (source_y h nw nh r i j))) as (o & E & Ro); auto.
  - apply (size_positive w h r); auto.
  - apply (size_positive h w r); auto.
  - intros k p Hk Hp; rewrite (channel_unique _ _ _ _ _ _ Hp); destruct (HI k Hk) as (v & V & X).
    destruct (rotate_shear_all d interp _ w h _ r v (picture_Repr w h _) F V X) as (nw1 & nh1 & o1 & E1 & Cw1 & Ch1 & R1).
    assert (nw1 = nw) as -> by (apply (ceiling_unique _ _ _ Cw1 Cw)); assert (nh1 = nh) as -> by (apply (ceiling_unique _ _ _ Ch1 Ch)).
    exists o1; split; [exact E1|]; eapply Repr_ext; [exact R1|]; intros i j Hi Hj; unfold val; rewrite V; reflexivity.
  - exists nw, nh, o; eexists; split; [exact E|]; split; [exact Ro|]; split; auto; split; auto.
    intros i j Hi Hj; split; [rewrite map_length, seq_length; reflexivity|]; do 2 eexists; split; [apply source_turned|].
    intros k Hk; destruct (HI k Hk) as (v & V & X).
    rewrite (nth_indep _ d (val 0 (source_x w nw nh r i j) (source_y h nw nh r i j))) by (rewrite map_length, seq_length; auto).
    rewrite (map_nth (fun k => val k (source_x w nw nh r i j) (source_y h nw nh r i j))), seq_nth by auto.
    unfold val; cbn [Nat.add]; rewrite V; reflexivity.
Qed.
Print Assumptions C179_turned_multichannel.

(** the default interpolators of the colours of doubles and of bytes do that *)
Theorem C179_default_doubles w h f k : (Z.of_nat (w + h) < 2 ^ 64)%Z ->
  interpolates (bicubic_r (fun v => v) (fun v => v) 0%R) w h (channel 0%R w h f k) (fun x y => nth k (f x y) 0%R).
Proof. intros F; destruct (C104_default _ w h _ (picture_Repr w h (fun x y => nth k (f x y) 0%R)) F) as (val & V & X & _); exists val; auto. Qed.
Print Assumptions C179_default_doubles.
Theorem C179_default_bytes w h f k : (Z.of_nat (w + h) < 2 ^ 64)%Z -> (forall x y, x < w -> y < h -> (0 <= nth k (f x y) 0 <= 255)%Z) ->
  interpolates (bicubic_r IZR (fin_int_r 0 255) 0%Z) w h (channel 0%Z w h f k) (fun x y => nth k (f x y) 0%Z).
Proof. intros F B; destruct (C104_default_int 0 255 _ w h _ (picture_Repr w h (fun x y => nth k (f x y) 0%Z)) F B) as (val & V & X & _); exists val; auto. Qed.
Print Assumptions C179_default_bytes.

(** ninety degrees and its multiples move the pixels, and with them whole colours, without changing them *)
Theorem C179_degrees {A} (d : A) interp im w h f : Repr im w h f -> (Z.of_nat (w + h) < 2 ^ 64)%Z -> interpolates interp w h im f ->
  (exists o, rotate_shear_degree d (PI / 2) interp im 0 = Ok o /\ Repr o w h f) /\
  (exists o, rotate_shear_degree d (PI / 2) interp im 90 = Ok o /\ Repr o h w (fun i j => f j (h - 1 - i))) /\
  (exists o, rotate_shear_degree d (PI / 2) interp im 180 = Ok o /\ Repr o w h (fun i j => f (w - 1 - i) (h - 1 - j))) /\
  (exists o, rotate_shear_degree d (PI / 2) interp im 270 = Ok o /\ Repr o h w (fun i j => f (w - 1 - j) i)) /\
  (exists o, rotate_shear_degree d (PI / 2) interp im 360 = Ok o /\ Repr o w h f).
Proof.
  intros R F (val & V & X); unfold rotate_shear_degree; rewrite (check2d_Repr _ _ _ _ R); cbn [bind].
  destruct (C104_quarter_turns d interp im w h f 0 val R F V X) as (Q0 & Q1 & Q2 & Q3).
  destruct (C104_quarter_turns d interp im w h f 1 val R F V X) as (Q4 & _ & _ & _).
  replace (0 * (2 * (PI / 2)) / 180)%R with (2 * PI * 0)%R by field; replace (90 * (2 * (PI / 2)) / 180)%R with (PI / 2 + 2 * PI * 0)%R by field.
  replace (180 * (2 * (PI / 2)) / 180)%R with (PI + 2 * PI * 0)%R by field; replace (270 * (2 * (PI / 2)) / 180)%R with (3 * (PI / 2) + 2 * PI * 0)%R by field.
  replace (360 * (2 * (PI / 2)) / 180)%R with (2 * PI * 1)%R by field; auto.
Qed.
Print Assumptions C179_degrees.

Theorem C179_degrees_colours {A} (d : A) interp s im w h f : sched1_ok s -> Repr im w h f -> (forall x y, x < w -> y < h -> length (f x y) = 3) ->
  0 < w -> 0 < h -> (Z.of_nat (w + h) < 2 ^ 64)%Z ->
  (forall k, k < 3 -> interpolates interp w h (channel d w h f k) (fun x y => nth k (f x y) d)) ->
  (exists o, rotate_shear_degree3 d (PI / 2) interp s im 0 = Ok o /\ Repr o w h f) /\
  (exists o, rotate_shear_degree3 d (PI / 2) interp s im 90 = Ok o /\ Repr o h w (fun i j => f j (h - 1 - i))) /\
  (exists o, rotate_shear_degree3 d (PI / 2) interp s im 180 = Ok o /\ Repr o w h (fun i j => f (w - 1 - i) (h - 1 - j))) /\
  (exists o, rotate_shear_degree3 d (PI / 2) interp s im 270 = Ok o /\ Repr o h w (fun i j => f (w - 1 - j) i)) /\
  (exists o, rotate_shear_degree3 d (PI / 2) interp s im 360 = Ok o /\ Repr o w h f).
Proof.
  intros Hs R L Pw Ph F HI.
  assert (G : forall degrees w' h' (to : nat -> nat -> nat * nat), 0 < w' -> 0 < h' ->
     (forall i j, i < w' -> j < h' -> fst (to i j) < w /\ snd (to i j) < h) ->
     (forall k, k < 3 -> exists o, rotate_shear_degree d (PI / 2) interp (channel d w h f k) degrees = Ok o /\
        Repr o w' h' (fun i j => nth k (f (fst (to i j)) (snd (to i j))) d)) ->
     exists o, rotate_shear_degree3 d (PI / 2) interp s im degrees = Ok o /\ Repr o w' h' (fun i j => f (fst (to i j)) (snd (to i j)))).
  { intros degrees w' h' to Pw' Ph' T H; unfold rotate_shear_degree3, rotate_shear3; rewrite (check2d_Repr _ _ _ _ R); cbn [bind].
    destruct (C179_planes s d [d; d; d] (fun plane => rotate_shear d (PI / 2) interp plane (degrees * (2 * (PI / 2)) / 180)) im w h f w' h'
      (fun k i j => nth k (f (fst (to i j)) (snd (to i j))) d)) as (o & E & Ro); auto.
    - intros k p Hk Hp; rewrite (channel_unique _ _ _ _ _ _ Hp); destruct (H k Hk) as (o & E & Ro); exists o; split; [|exact Ro].
      unfold rotate_shear_degree in E; rewrite (check2d_Repr (channel d w h f k) w h _ (picture_Repr w h _)) in E; exact E.
    - exists o; split; [exact E|]; eapply Repr_ext; [exact Ro|]; intros i j Hi Hj; cbv beta; destruct (T i j Hi Hj) as (T1 & T2).
      destruct (length3 _ (L _ _ T1 T2)) as (a & b & c & ->); reflexivity. }
  assert (Q : forall k, k < 3 -> _) by (intros k Hk; exact (C179_degrees d interp _ w h _ (picture_Repr w h _) F (HI k Hk))).
  split; [|split; [|split; [|split]]].
  - apply (G 0%R w h (fun i j => (i, j))); auto; intros k Hk; apply (Q k Hk).
  - apply (G 90%R h w (fun i j => (j, h - 1 - i))); auto; [cbn; lia | intros k Hk; apply (Q k Hk)].
  - apply (G 180%R w h (fun i j => (w - 1 - i, h - 1 - j))); auto; [cbn; lia | intros k Hk; apply (Q k Hk)].
  - apply (G 270%R h w (fun i j => (w - 1 - j, i))); auto; [cbn; lia | intros k Hk; apply (Q k Hk)].
  - apply (G 360%R w h (fun i j => (i, j))); auto; intros k Hk; apply (Q k Hk).
Qed.
Print Assumptions C179_degrees_colours.

(** ** the bilateral filter keeps every channel inside the range of that channel *)
Theorem C179_bilateral (cast rk sk : R -> R) s sg s' im w h f ww wh bc (lo hi : nat -> R) :
  (forall a b, a <= b -> cast a <= cast b)%R -> (forall a, cast (cast a) = cast a) ->
  (forall t, 0 <= rk t)%R -> (forall t, 0 <= sk t)%R -> (0 < rk 0)%R -> (0 < sk 0)%R ->
  sched1_ok s -> sched_ok sg -> sched1_ok s' -> Repr im w h f -> (forall x y, x < w -> y < h -> length (f x y) = 3) ->
  0 < w -> 0 < h -> 0 < ww -> 0 < wh -> (Z.of_nat (w + 2 * ww) <= 2 ^ 62)%Z -> (Z.of_nat (h + 2 * wh) <= 2 ^ 62)%Z ->
  (bc = BMirror -> ww < w /\ wh < h) ->
  (forall k, k < 3 -> cast (lo k) = lo k /\ cast (hi k) = hi k) ->
  (forall x y k, x < w -> y < h -> k < 3 -> (lo k <= nth k (f x y) 0 <= hi k)%R /\ cast (nth k (f x y) 0%R) = nth k (f x y) 0%R) ->
  (bc = BConstant -> cast 0%R = 0%R /\ forall k, k < 3 -> (lo k <= 0 <= hi k)%R) ->
  exists o g, bilateral_filter3 cast rk sk s sg s' im [ww; wh] bc = Ok o /\ Repr o w h g /\
    forall x y, x < w -> y < h -> length (g x y) = 3 /\ forall k, k < 3 -> (lo k <= nth k (g x y) 0 <= hi k)%R.
Proof.
  intros Mono Idem Rnn Snn R0 S0 Hs Hg Hs' R L Pw Ph Pww Pwh Bw Bh HM HC HF H0.
  assert (Q : forall k, k < 3 -> exists o F, bilateral_filter cast rk sk sg s' (channel 0%R w h f k) [ww; wh] bc 0 = Ok o /\ Repr o w h F /\
     forall x y, x < w -> y < h -> (lo k <= F x y <= hi k)%R /\ cast (F x y) = F x y).
  { intros k Hk; apply (C107_range cast rk sk sg s' _ w h (fun x y => nth k (f x y) 0%R) ww wh bc 0 (lo k) (hi k)); auto; try apply HC; auto.
    - apply picture_Repr.
    - intros B; destruct (H0 B); auto. }
  destruct (Q 0 ltac:(lia)) as (o0 & F0 & E0 & R0' & B0); destruct (Q 1 ltac:(lia)) as (o1 & F1 & E1 & R1 & B1); destruct (Q 2 ltac:(lia)) as (o2 & F2 & E2 & R2 & B2).
  destruct (C179_planes s 0%R [0; 0; 0]%R (fun plane => bilateral_filter cast rk sk sg s' plane [ww; wh] bc 0) im w h f w h
     (fun k => match k with 0 => F0 | 1 => F1 | _ => F2 end)) as (o & E & Ro); auto.
  - intros k p Hk Hp; rewrite (channel_unique _ _ _ _ _ _ Hp); destruct k as [|[|[|k]]]; [exists o0 | exists o1 | exists o2 | lia]; auto.
  - exists o; eexists; split; [exact E|]; split; [exact Ro|]; intros x y Hx Hy; split; [reflexivity|].
    intros [|[|[|k]]] Hk; [apply B0 | apply B1 | apply B2 | lia]; auto.
Qed.
Print Assumptions C179_bilateral.

(** a 2 x 3 picture of colours of bytes turned by ninety degrees *)
Definition tile (x y : nat) : list Z := [Z.of_nat (x + 2 * y); 7; 255 - Z.of_nat (10 * x + y)]%Z.
Example C179_case : exists o, rotate_shear_degree3 0%Z (PI / 2) (bicubic_r IZR (fin_int_r 0 255) 0%Z) seq0 (picture 2 3 tile) 90 = Ok o /\
  Repr o 3 2 (fun i j => tile j (2 - i)).
Proof.
  assert (B : forall k x y, x < 2 -> y < 3 -> (0 <= nth k (tile x y) 0 <= 255)%Z) by (intros [|[|[|[|k]]]] x y Hx Hy; cbn [tile nth]; lia).
  destruct (C179_degrees_colours 0%Z (bicubic_r IZR (fin_int_r 0 255) 0%Z) seq0 _ 2 3 _ sched1_seq0 (picture_Repr 2 3 tile)) as (_ & H & _); auto; try lia.
  intros k Hk; apply C179_default_bytes; [lia | auto].
Qed.
