(** PropStitch.v - C56 (create_stitched_image) and C81 (warp_perspective). *)
From Coq Require Import QArith Qcanon Qround Lia ZifyBool ZifyNat Permutation Lqa.
From Verif Require Import Base ImageModel ImageFacts PixelModel PixelProofs OField LinModel LinProofs PropLin PropBmp InterpModel InterpProofs HomModel HomProofs WarpProofs.
Open Scope nat_scope.

(** ** C81  warp_perspective *)
(** Every output pixel is the source read at the image of its position under the matrix; it keeps the default value
    where the denominator is (nearly) zero.  No bound on sizes, any interpolator. *)
Theorem C81_warp : forall (K : ofield) (A : Type) (eps : K) (d : A) (interp : image A -> K -> K -> res A) sg src H f ow oh (v : K -> K -> A),
  sched_ok sg -> MRepr H 3 3 f -> (forall X Y, interp src X Y = Ok (v X Y)) ->
  exists out, warp_perspective K eps d interp sg src H ow oh = Ok out /\
    Repr out ow oh (fun x y =>
      let at_row r := fadd (fadd (fmul (f r 0) (fnat K x)) (fmul (f r 1) (fnat K y))) (f r 2) in
      if fltb (fabs (at_row 2)) eps then d else v (fdiv (at_row 0) (at_row 2)) (fdiv (at_row 1) (at_row 2))).
Proof.
  intros K A eps d interp sg src H f ow oh v Hs MH Hv.
  destruct (warp_ok K eps d interp sg src H f ow oh
    (fun x y => v (fdiv (form K f 0 x y) (form K f 2 x y)) (fdiv (form K f 1 x y) (form K f 2 x y))) Hs MH) as (out & E & R).
  - intros; apply Hv.
  - exists out; split; auto.
Qed.
Print Assumptions C81_warp.

(** With a policy the matrix is inverted first: the source is read at the image under the inverse. *)
Theorem C81_policy : forall (K : ofield) (A : Type) (eps inv_eps : K) (d : A) (interp : image A -> K -> K -> res A) s src H f g ow oh (v : K -> K -> A),
  sched1_ok s -> MRepr H 3 3 f -> (forall X Y, interp src X Y = Ok (v X Y)) ->
  fltb f0 inv_eps = true -> fltb (fabs (det3 K f)) inv_eps = false ->
  (forall i j, i < 3 -> j < 3 -> mprod K f g i j = if i =? j then f1 else f0) ->
  exists out, warp_perspective_policy K eps d interp inv_eps s src H ow oh = Ok out /\
    Repr out ow oh (fun x y =>
      let at_row r := fadd (fadd (fmul (g r 0) (fnat K x)) (fmul (g r 1) (fnat K y))) (g r 2) in
      if fltb eps (fabs (at_row 2)) then v (fdiv (at_row 0) (at_row 2)) (fdiv (at_row 1) (at_row 2)) else d).
Proof.
  intros K A eps inv_eps d interp s src H f g ow oh v Hs MH Hv He Hd Hg.
  destruct (invert_spec K inv_eps H f MH He Hd) as (Hi & g' & EI & MI & V1 & V2).
  assert (MI' : MRepr Hi 3 3 g).
  { eapply MRepr_ext; [exact MI|]. intros i j Hi' Hj. symmetry. apply (inverse_unique K f g g'); auto. }
  destruct (warp_policy_ok K eps inv_eps d interp s src H f Hi g ow oh
    (fun x y => v (fdiv (form K g 0 x y) (form K g 2 x y)) (fdiv (form K g 1 x y) (form K g 2 x y))) Hs MH EI MI') as (out & E & R).
  - intros; apply Hv.
  - exists out; split; auto.
Qed.
Print Assumptions C81_policy.

(** A singular matrix, or an empty one, gives the blank image. *)
Theorem C81_blank : forall (K : ofield) (A : Type) (eps inv_eps : K) (d : A) (interp : image A -> K -> K -> res A) sg s src H ow oh,
  (mat_empty H = true ->
    warp_perspective K eps d interp sg src H ow oh = Ok (mkImage [ow; oh] (repeat d (ow * oh))) /\
    warp_perspective_policy K eps d interp inv_eps s src H ow oh = Ok (mkImage [ow; oh] (repeat d (ow * oh)))) /\
  (forall f, MRepr H 3 3 f -> fltb f0 inv_eps = true -> fltb (fabs (det3 K f)) inv_eps = true ->
    warp_perspective_policy K eps d interp inv_eps s src H ow oh = Ok (mkImage [ow; oh] (repeat d (ow * oh)))).
Proof.
  intros K A eps inv_eps d interp sg s src H ow oh.
  assert (E0 : image_sizes d [ow; oh] = mkImage [ow; oh] (repeat d (ow * oh))).
  { unfold image_sizes. f_equal. f_equal. cbn. lia. }
  split.
  - intros E. split; [rewrite warp_empty by auto|unfold warp_perspective_policy; rewrite E]; congruence.
  - intros f M He Hd. unfold warp_perspective_policy. rewrite (mat_empty3 K H f M).
    rewrite (proj1 (C43_inverse K inv_eps H f M He) Hd). cbn [bind mat_empty mat_default rows cols]. exact (f_equal Ok E0).
Qed.
Print Assumptions C81_blank.

(** the translation by (a, b) *)
Definition shift_matrix (a b : Qc) : matrix Qcfield :=
  mkMatrix 3 3 [qc 1 1; qc 0 1; a; qc 0 1; qc 1 1; b; qc 0 1; qc 0 1; qc 1 1].
(** a row of pixels *)
Definition row_image (vs : list (list Z)) : image (list Z) := mkImage [length vs; 1] vs.
Definition grey (v : Z) : list Z := [v; v; v].
Notation tiny := (qc 1 4503599627370496).
Notation threshold := (qc 1 1000000000).

(** With and without a policy warp_perspective applies opposite maps: for a translation by one pixel the one version shifts
    left and the other shifts right. *)
Theorem C81_policy_refuted :
  exists src H, warp_perspective Qcfield tiny rgb0 rgb_bicubic grid src H 3 1 = Ok (row_image [grey 20; grey 30; grey 0]) /\
    warp_perspective_policy Qcfield tiny rgb0 rgb_bicubic threshold seq0 src H 3 1 = Ok (row_image [grey 0; grey 10; grey 20]).
Proof. exists (row_image [grey 10; grey 20; grey 30]), (shift_matrix (qc 1 1) (qc 0 1)). split; vm_compute; reflexivity. Qed.
Print Assumptions C81_policy_refuted.

(** ** C56  create_stitched_image *)
(** The premises: two pictures of RGB pixels, an interpolator that can be evaluated everywhere, an invertible matrix [f]
    (the code's test on the determinant passes) with inverse [g], no corner of the second picture sent to infinity, and a
    canvas whose sides are numbers of std::size_t.  [min_x] ... [max_y] are the extremes of the first picture and the four
    projected corners of the second. *)
Record stitchable (inv_eps : Qcfield) (interp : image (list Z) -> Qcfield -> Qcfield -> res (list Z)) (img1 img2 : image (list Z)) (H_in : matrix Qcfield)
  (w1 h1 w2 h2 : nat) (p1 p2 : nat -> nat -> list Z) (sample : Qc -> Qc -> list Z) (f g : nat -> nat -> Qcfield) (min_x max_x min_y max_y : Qc) : Prop := {
  s_first : Repr img1 w1 h1 p1; s_first_rgb : forall i j, i < w1 -> j < h1 -> rgb (p1 i j);
  s_second : Repr img2 w2 h2 p2; s_wide : 0 < w2; s_high : 0 < h2; s_w2 : (Z.of_nat w2 < two64)%Z; s_h2 : (Z.of_nat h2 < two64)%Z;
  s_sample : forall X Y, interp img2 X Y = Ok (sample X Y) /\ rgb (sample X Y);
  s_eps : fltb (@f0 Qcfield) inv_eps = true;
  s_matrix : MRepr H_in 3 3 f; s_det : fltb (fabs (det3 Qcfield f)) inv_eps = false;
  s_inverse : forall i j, i < 3 -> j < 3 -> mprod Qcfield f g i j = delta Qcfield i j;
  s_corners : forall p, In p [(0, 0); (w2 - 1, 0); (0, h2 - 1); (w2 - 1, h2 - 1)] -> plin g 2 p <> Q2Qc 0;
  s_bounds : bounds g w1 h1 w2 h2 = (min_x, max_x, min_y, max_y);
  s_width : (this max_x - this min_x <= inject_Z (two64 - 1))%Q;
  s_height : (this max_y - this min_y <= inject_Z (two64 - 1))%Q }.

(** the inverse that the code computes is [g] *)
Lemma stitchable_inverse inv_eps interp img1 img2 H_in w1 h1 w2 h2 p1 p2 sample f g a b c e :
  stitchable inv_eps interp img1 img2 H_in w1 h1 w2 h2 p1 p2 sample f g a b c e ->
  exists H, invert Qcfield inv_eps H_in = Ok H /\ MRepr H 3 3 g.
Proof.
  intros S. destruct (invert_spec Qcfield inv_eps H_in f (s_matrix _ _ _ _ _ _ _ _ _ _ _ _ _ _ _ _ _ _ S)
    (s_eps _ _ _ _ _ _ _ _ _ _ _ _ _ _ _ _ _ _ S) (s_det _ _ _ _ _ _ _ _ _ _ _ _ _ _ _ _ _ _ S)) as (H & g' & E & M & V1 & V2).
  exists H; split; auto. eapply MRepr_ext; [exact M|]. intros i j Hi Hj. symmetry.
  apply (inverse_unique Qcfield f g g'); auto. apply (s_inverse _ _ _ _ _ _ _ _ _ _ _ _ _ _ _ _ _ _ S).
Qed.

(** the position of image 2 that pixel (x, y) of the canvas corresponds to, [f] taking image 1 to image 2 *)
Definition den (f : nat -> nat -> Qcfield) (x y : Qc) : Qc := lin Qcfield f 2 x y.
Definition src (f : nat -> nat -> Qcfield) (x y : Qc) : Qc * Qc := ((lin Qcfield f 0 x y / den f x y)%Qc, (lin Qcfield f 1 x y / den f x y)%Qc).

(** Without a policy: the canvas reads the second picture at f(x, y) + t, where t is minus the lower bounds. *)
Theorem C56_sequential : forall eps inv_eps interp oor img1 img2 H_in w1 h1 w2 h2 p1 p2 sample f g min_x max_x min_y max_y sg1 sg2,
  stitchable inv_eps interp img1 img2 H_in w1 h1 w2 h2 p1 p2 sample f g min_x max_x min_y max_y ->
  (forall q, exists n, oor q = Ok n) -> fltb (@f0 Qcfield) eps = true -> sched_ok sg1 -> sched_ok sg2 ->
  exists out, create_stitched_image eps inv_eps interp oor sg1 sg2 img1 img2 H_in = Ok out /\
    Repr out (extent min_x max_x) (extent min_y max_y) (fun x y =>
      let X := fnat Qcfield x in let Y := fnat Qcfield y in
      let warped := if fltb (@fabs Qcfield (den f X Y)) eps then rgb0 else sample (fst (src f X Y) - min_x)%Qc (snd (src f X Y) - min_y)%Qc in
      match stitched w1 h1 p1 (- min_x) (- min_y) x y warped with Some v => v | None => rgb0 end).
Proof.
  intros eps inv_eps interp oor img1 img2 H_in w1 h1 w2 h2 p1 p2 sample f g min_x max_x min_y max_y sg1 sg2 S Ho He Hs1 Hs2.
  destruct (stitchable_inverse _ _ _ _ _ _ _ _ _ _ _ _ _ _ _ _ _ _ S) as (H & EH & MG). destruct S.
  destruct (stitch_seq_ok eps inv_eps interp oor He s_eps0 img1 img2 w1 h1 w2 h2 p1 p2 s_first0 s_second0 s_first_rgb0 sample s_sample0 s_wide0 s_high0 s_w3 s_h3
    H_in H f g s_matrix0 EH MG s_corners0 min_x max_x min_y max_y s_bounds0 s_width0 s_height0 sg1 sg2 Ho Hs1 Hs2) as (out & E & R).
  exists out; split; [exact E|]. eapply Repr_ext; [exact R|]. intros x y _ _. unfold shown, src, den, Qcminus. reflexivity.
Qed.
Print Assumptions C56_sequential.

(** With a policy: it reads the second picture at f((x, y) - t), as a stitched picture should. *)
Theorem C56_policy : forall eps inv_eps interp oor img1 img2 H_in w1 h1 w2 h2 p1 p2 sample f g min_x max_x min_y max_y s1 s2,
  stitchable inv_eps interp img1 img2 H_in w1 h1 w2 h2 p1 p2 sample f g min_x max_x min_y max_y ->
  (forall q, exists n, oor q = Ok n) -> sched1_ok s1 -> sched1_ok s2 ->
  fltb (@fabs Qcfield (det3 Qcfield g)) inv_eps = false ->
  exists out, create_stitched_image_policy eps inv_eps interp oor s1 s2 img1 img2 H_in = Ok out /\
    Repr out (extent min_x max_x) (extent min_y max_y) (fun x y =>
      let X := (fnat Qcfield x + min_x)%Qc in let Y := (fnat Qcfield y + min_y)%Qc in
      let warped := if fltb eps (@fabs Qcfield (den f X Y)) then sample (fst (src f X Y)) (snd (src f X Y)) else rgb0 in
      match stitched w1 h1 p1 (- min_x) (- min_y) x y warped with Some v => v | None => rgb0 end).
Proof.
  intros eps inv_eps interp oor img1 img2 H_in w1 h1 w2 h2 p1 p2 sample f g min_x max_x min_y max_y s1 s2 S Ho Hs1 Hs2 Hdet.
  destruct (stitchable_inverse _ _ _ _ _ _ _ _ _ _ _ _ _ _ _ _ _ _ S) as (H & EH & MG). destruct S.
  destruct (stitch_policy_ok eps inv_eps interp oor s_eps0 img1 img2 w1 h1 w2 h2 p1 p2 s_first0 s_second0 s_first_rgb0 sample s_sample0 s_wide0 s_high0 s_w3 s_h3
    H_in H f g s_matrix0 EH MG s_corners0 min_x max_x min_y max_y s_bounds0 s_width0 s_height0 s1 s2 Ho Hs1 Hs2 s_inverse0 Hdet) as (out & E & R).
  exists out; split; [exact E|]. eapply Repr_ext; [exact R|]. intros x y _ _. unfold shown, src, den.
  assert (D : forall a b : Qc, (a - - b)%Qc = (a + b)%Qc) by (intros; ring). rewrite !D. cbn [fst snd].
  destruct (fltb eps _); reflexivity.
Qed.
Print Assumptions C56_policy.

(** The canvas holds the first picture and every projected corner of the second, and is no larger than needed. *)
Theorem C56_canvas : forall inv_eps interp img1 img2 H_in w1 h1 w2 h2 p1 p2 sample f g min_x max_x min_y max_y,
  stitchable inv_eps interp img1 img2 H_in w1 h1 w2 h2 p1 p2 sample f g min_x max_x min_y max_y ->
  let corner r i j := (plin g r (i, j) / plin g 2 (i, j))%Qc in
  let within lo hi v := (this lo <= this v <= this hi)%Q in
  (forall i j, (i = 0 \/ i = w2 - 1) -> (j = 0 \/ j = h2 - 1) -> within min_x max_x (corner 0 i j) /\ within min_y max_y (corner 1 i j)) /\
  within min_x max_x (Q2Qc 0) /\ within min_x max_x (fnat Qcfield w1) /\ within min_y max_y (Q2Qc 0) /\ within min_y max_y (fnat Qcfield h1) /\
  (this max_x - this min_x <= qn (extent min_x max_x) < this max_x - this min_x + 1)%Q /\
  (this max_y - this min_y <= qn (extent min_y max_y) < this max_y - this min_y + 1)%Q.
Proof.
  intros inv_eps interp img1 img2 H_in w1 h1 w2 h2 p1 p2 sample f g min_x max_x min_y max_y S corner within.
  pose proof (s_bounds _ _ _ _ _ _ _ _ _ _ _ _ _ _ _ _ _ _ S) as Hb. clear S.
  unfold bounds in Hb. cbv zeta in Hb. rewrite !pair_equal_spec in Hb. destruct Hb as [[[E1 E2] E3] E4].
  pose proof (proj1 (lowest_spec (map (pproj g 0) (corners w2 h2)) (Q2Qc 0))) as A1. rewrite E1 in A1.
  pose proof (proj1 (lowest_spec (map (pproj g 1) (corners w2 h2)) (Q2Qc 0))) as A2. rewrite E3 in A2.
  pose proof (proj1 (highest_spec (map (pproj g 0) (corners w2 h2)) (fnat Qcfield w1))) as A3. rewrite E2 in A3.
  pose proof (proj1 (highest_spec (map (pproj g 1) (corners w2 h2)) (fnat Qcfield h1))) as A4. rewrite E4 in A4.
  pose proof (A1 _ (or_introl eq_refl)) as B1. pose proof (A2 _ (or_introl eq_refl)) as B2.
  pose proof (A3 _ (or_introl eq_refl)) as B3. pose proof (A4 _ (or_introl eq_refl)) as B4.
  change (this (Q2Qc 0)) with 0%Q in *. pose proof (qn_nonneg w1). pose proof (qn_nonneg h1).
  assert (G : forall lo hi, (this lo <= this hi)%Q -> (this hi - this lo <= qn (extent lo hi) < this hi - this lo + 1)%Q).
  { intros lo hi L. unfold extent. pose proof (this_sub hi lo) as E. unfold qn.
    assert (0 <= Qceiling (this (hi - lo)%Qc))%Z.
    { change 0%Z with (Qceiling 0). apply Qceiling_resp_le. rewrite E. lra. }
    rewrite Z2Nat.id by auto. pose proof (Qle_ceiling (this (hi - lo)%Qc)) as C1. pose proof (Qceiling_lt (this (hi - lo)%Qc)) as C2.
    assert (X : (inject_Z (Qceiling (this (hi - lo)%Qc) - 1) == inject_Z (Qceiling (this (hi - lo)%Qc)) - 1)%Q).
    { unfold Zminus. rewrite inject_Z_plus. reflexivity. }
    rewrite X in C2. split; lra. }
  rewrite this_fnat in B3, B4. unfold within. rewrite !this_fnat. change (this (Q2Qc 0)) with 0%Q.
  split; [|repeat split; try lra; apply G; lra].
  intros i j Hi Hj.
  assert (Hin : In (i, j) (corners w2 h2)).
  { unfold corners. destruct Hi as [->| ->], Hj as [->| ->]; cbn; tauto. }
  split; split.
  - apply A1. right. apply (in_map (pproj g 0) _ _ Hin).
  - apply A3. right. apply (in_map (pproj g 0) _ _ Hin).
  - apply A2. right. apply (in_map (pproj g 1) _ _ Hin).
  - apply A4. right. apply (in_map (pproj g 1) _ _ Hin).
Qed.
Print Assumptions C56_canvas.

(** The default interpolator satisfies the premise on interpolators, for every picture of RGB pixels. *)
Theorem C56_default : forall img2 w2 h2 p2, Repr img2 w2 h2 p2 -> 0 < w2 -> 0 < h2 -> (forall i j, i < w2 -> j < h2 -> rgb (p2 i j)) ->
  exists sample, forall X Y, rgb_bicubic img2 X Y = Ok (sample X Y) /\ rgb (sample X Y).
Proof.
  intros img2 w2 h2 p2 R Hw Hh B. exists (fun X Y => match rgb_bicubic img2 X Y with Ok v => v | _ => rgb0 end).
  intros X Y. destruct (rgb_bicubic_ok img2 w2 h2 p2 X Y R Hw Hh B) as (v & -> & Rv). auto.
Qed.
Print Assumptions C56_default.

(** Where the two versions give the same picture: the second picture reaches neither left of nor above the first, and no
    denominator is exactly the threshold. *)
Theorem C56_agree_partial : forall eps inv_eps interp oor img1 img2 H_in w1 h1 w2 h2 p1 p2 sample f g max_x max_y sg1 sg2 s1 s2,
  stitchable inv_eps interp img1 img2 H_in w1 h1 w2 h2 p1 p2 sample f g (Q2Qc 0) max_x (Q2Qc 0) max_y ->
  (forall q, exists n, oor q = Ok n) -> fltb (@f0 Qcfield) eps = true ->
  sched_ok sg1 -> sched_ok sg2 -> sched1_ok s1 -> sched1_ok s2 ->
  fltb (@fabs Qcfield (det3 Qcfield g)) inv_eps = false ->
  (forall x y, @fabs Qcfield (den f (fnat Qcfield x) (fnat Qcfield y)) <> eps) ->
  exists out, create_stitched_image eps inv_eps interp oor sg1 sg2 img1 img2 H_in = Ok out /\
    create_stitched_image_policy eps inv_eps interp oor s1 s2 img1 img2 H_in = Ok out.
Proof.
  intros eps inv_eps interp oor img1 img2 H_in w1 h1 w2 h2 p1 p2 sample f g max_x max_y sg1 sg2 s1 s2 S Ho He Hs1 Hs2 Hs3 Hs4 Hdet Hne.
  destruct (C56_sequential eps inv_eps interp oor img1 img2 H_in w1 h1 w2 h2 p1 p2 sample f g _ _ _ _ sg1 sg2 S Ho He Hs1 Hs2) as (o1 & E1 & R1).
  destruct (C56_policy eps inv_eps interp oor img1 img2 H_in w1 h1 w2 h2 p1 p2 sample f g _ _ _ _ s1 s2 S Ho Hs3 Hs4 Hdet) as (o2 & E2 & R2).
  exists o1; split; auto. rewrite E2. f_equal. symmetry. eapply Repr_eq; [exact R1|]. eapply Repr_ext; [exact R2|].
  intros x y _ _. cbv zeta. cbv beta.
  assert (P : forall a : Qc, (a + Q2Qc 0%Q)%Qc = a) by (intros; ring). assert (M : forall a : Qc, (a - Q2Qc 0%Q)%Qc = a) by (intros; ring).
  rewrite !P, !M.
  set (W := @fabs Qcfield (den f (fnat Qcfield x) (fnat Qcfield y))) in *.
  pose proof (Hne x y) as Hn. fold W in Hn.
  destruct (fltb W eps) eqn:L1, (fltb eps W) eqn:L2; auto.
  - pose proof (f_asym _ _ _ L1). congruence.
  - exfalso. apply Hn. apply qcltb_nle in L1, L2. apply Qc_is_canon. apply Qle_antisym; auto.
Qed.
Print Assumptions C56_agree_partial.

(** An empty or singular homography gives the empty image. *)
Theorem C56_empty : forall eps inv_eps interp oor img1 img2 H_in sg1 sg2 s1 s2,
  fltb (@f0 Qcfield) inv_eps = true ->
  (mat_empty H_in = true \/ exists f, MRepr H_in 3 3 f /\ fltb (@fabs Qcfield (det3 Qcfield f)) inv_eps = true) ->
  create_stitched_image eps inv_eps interp oor sg1 sg2 img1 img2 H_in = Ok (mkImage [] []) /\
  create_stitched_image_policy eps inv_eps interp oor s1 s2 img1 img2 H_in = Ok (mkImage [] []).
Proof.
  intros eps inv_eps interp oor img1 img2 H_in sg1 sg2 s1 s2 He [E|(f & M & Hd)]; unfold create_stitched_image, create_stitched_image_policy.
  - rewrite E. auto.
  - rewrite (mat_empty3 Qcfield H_in f M). rewrite (proj1 (C43_inverse Qcfield inv_eps H_in f M He) Hd). cbn [bind]. auto.
Qed.
Print Assumptions C56_empty.

(** The two versions differ as soon as the second picture reaches left of the first: the second picture is half a pixel to
    the left.  Without a policy its last column is lost; with a policy it is there. *)
Theorem C56_refuted :
  exists img1 img2 H_in, forall out_of_range, exists a b,
    create_stitched_image tiny threshold rgb_bicubic out_of_range grid grid img1 img2 H_in = Ok a /\
    create_stitched_image_policy tiny threshold rgb_bicubic out_of_range seq0 seq0 img1 img2 H_in = Ok b /\
    (pix a, pix b) = ([grey 10; grey 0], [grey 10; grey 30]).
Proof.
  exists (row_image [grey 10]), (row_image [grey 20; grey 30]), (shift_matrix (qc 1 2) (qc 0 1)).
  intros oor. do 2 eexists. split; [vm_compute; reflexivity|]. split; [vm_compute; reflexivity|]. vm_compute. reflexivity.
Qed.
Print Assumptions C56_refuted.

(** When the second picture reaches a whole pixel or more to the left of the first (or above it), a negative floating
    value is converted to std::size_t: by the standard the behaviour of both versions is undefined. *)
Theorem C56_undefined : forall eps inv_eps interp oor img1 img2 H_in w1 h1 w2 h2 p1 p2 sample f g min_x max_x min_y max_y sg1 sg2 s1 s2,
  stitchable inv_eps interp img1 img2 H_in w1 h1 w2 h2 p1 p2 sample f g min_x max_x min_y max_y ->
  (forall q, oor q = UB) -> fltb (@f0 Qcfield) eps = true -> 0 < w1 -> 0 < h1 ->
  sched_ok sg1 -> sched_ok sg2 -> sched1_ok s1 -> sched1_ok s2 ->
  fltb (@fabs Qcfield (det3 Qcfield g)) inv_eps = false ->
  (this min_x <= -1 \/ this min_y <= -1)%Q ->
  create_stitched_image eps inv_eps interp oor sg1 sg2 img1 img2 H_in = UB /\
  create_stitched_image_policy eps inv_eps interp oor s1 s2 img1 img2 H_in = UB.
Proof.
  intros eps inv_eps interp oor img1 img2 H_in w1 h1 w2 h2 p1 p2 sample f g min_x max_x min_y max_y sg1 sg2 s1 s2 S HU He P1 P2 Hs1 Hs2 Hs3 Hs4 Hdet Hm.
  destruct (stitchable_inverse _ _ _ _ _ _ _ _ _ _ _ _ _ _ _ _ _ _ S) as (H & EH & MG). destruct S.
  split.
  - apply (stitch_seq_ub eps inv_eps interp oor He s_eps0 img1 img2 w1 h1 w2 h2 p1 p2 s_first0 s_second0 s_first_rgb0 sample s_sample0 s_wide0 s_high0 s_w3 s_h3
    H_in H f g s_matrix0 EH MG s_corners0 min_x max_x min_y max_y s_bounds0 s_width0 s_height0); auto.
  - apply (stitch_policy_ub eps inv_eps interp oor s_eps0 img1 img2 w1 h1 w2 h2 p1 p2 s_first0 s_second0 s_first_rgb0 sample s_sample0 s_wide0 s_high0 s_w3 s_h3
    H_in H f g s_matrix0 EH MG s_corners0 min_x max_x min_y max_y s_bounds0 s_width0 s_height0); auto.
Qed.
Print Assumptions C56_undefined.

(** A case that meets the premises: one pixel, and a second picture of two pixels that starts on it.  The canvas is as wide as
    the distance from the first pixel to the last: the last column of the second picture is not shown by either version. *)
Example C56_case : exists sample f g max_x max_y p1 p2,
  stitchable threshold rgb_bicubic (row_image [grey 10]) (row_image [grey 20; grey 30]) (shift_matrix (qc 0 1) (qc 0 1))
    1 1 2 1 p1 p2 sample f g (Q2Qc 0) max_x (Q2Qc 0) max_y.
Proof.
  set (p2 := fun i _ : nat => if i =? 0 then grey 20 else grey 30).
  assert (R2 : Repr (row_image [grey 20; grey 30]) 2 1 p2).
  { split; [reflexivity|]. split; [reflexivity|]. intros [|[|x]] [|y] Hx Hy; try lia; reflexivity. }
  assert (B2 : forall i j, rgb (p2 i j)).
  { intros i j. unfold p2. destruct (i =? 0); split; auto; repeat constructor; lia. }
  destruct (C56_default _ 2 1 p2 R2 ltac:(lia) ltac:(lia) (fun i j _ _ => B2 i j)) as (sample & Hs).
  exists sample, (delta Qcfield), (delta Qcfield), (Q2Qc 1), (Q2Qc 1), (fun _ _ => grey 10), p2.
  constructor; auto; try lia; try reflexivity.
  - split; [reflexivity|]. split; [reflexivity|]. intros [|x] [|y] Hx Hy; try lia; reflexivity.
  - intros. split; auto; repeat constructor; lia.
  - split; [reflexivity|]. split; [reflexivity|]. split; [reflexivity|].
    intros i j Hi Hj. apply lt3 in Hi as [->|[->| ->]]; apply lt3 in Hj as [->|[->| ->]]; reflexivity.
  - intros i j Hi Hj. apply lt3 in Hi as [->|[->| ->]]; apply lt3 in Hj as [->|[->| ->]]; reflexivity.
  - intros p Hp. cbn in Hp. destruct Hp as [<-|[<-|[<-|[<-|[]]]]]; vm_compute; discriminate.
  - vm_compute. discriminate.
  - vm_compute. discriminate.
Qed.

(** Not every pixel of the second picture is shown, even when the two versions agree. *)
Theorem C56_last_column_refuted :
  exists img1 img2 H_in, img2 = row_image [grey 20; grey 30] /\ forall out_of_range, exists a,
    create_stitched_image tiny threshold rgb_bicubic out_of_range grid grid img1 img2 H_in = Ok a /\
    create_stitched_image_policy tiny threshold rgb_bicubic out_of_range seq0 seq0 img1 img2 H_in = Ok a /\
    pix a = [grey 10].
Proof.
  exists (row_image [grey 10]), (row_image [grey 20; grey 30]), (shift_matrix (qc 0 1) (qc 0 1)). split; auto.
  intros oor. eexists. split; [vm_compute; reflexivity|]. split; [vm_compute; reflexivity|]. reflexivity.
Qed.
Print Assumptions C56_last_column_refuted.
