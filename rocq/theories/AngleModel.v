(** AngleModel.v - image_operations.h:5647-5717: imgaussfilt with a direction.

    Element type double, modelled by the real numbers as in GaussModel and TurnModel; the constant pi / 2 of the turning is
    exactly PI / 2.  [sg] and [s] are the orders of the parallel loops. *)
From Coq Require Import Reals.
From Verif Require Import Base ImageModel GeomModel PixelModel OField JacobiModel SiftModel TurnModel GaussModel.
Open Scope nat_scope.

(** rotate_detail_shear_transformation of doubles with its default interpolator *)
Definition turn (im : image R) (radians : R) : res (image R) :=
  rotate_shear 0%R (PI / 2) (bicubic_r (fun v => v) (fun v => v) 0%R) im radians.

(** 5647-5684  imgaussfilt with two standard deviations and an angle, arithmetic elements.  The picture is turned, smoothed,
    turned back and cut to its extents around the centre *)
Definition imgaussfilt_angle (sg : nat -> nat -> list (nat * nat)) (s : nat -> list nat) (input : image R)
    (sigma1 sigma2 radians : R) (filter_size1 filter_size2 : nat) (bc : boundary) (c : R) : res (image R) :=
  let* _ := check2d input in
  if rleb sigma1 0 || rleb sigma2 0 then Throw RuntimeError else
  let* rotated := turn input radians in
  let* output := imgaussfilt2 sg s rotated sigma1 sigma2 filter_size1 filter_size2 bc c in
  let* output := turn output (- radians) in
  let* iw := get_width input in let* ih := get_height input in
  let* ow := get_width output in let* oh := get_height output in
  subimage 0%R output [iw; ih] [ow / 2; oh / 2] 0%R.

(** 5686-5717  the same for RGB_DOUBLE, HSV and several channels: apply_each, the padding value is 0.  [sp] is the order of the loop
    over the pixels *)
Definition imgaussfilt_angle3 (sp : nat -> list nat) (sg : nat -> nat -> list (nat * nat)) (s : nat -> list nat) (input : image (list R))
    (sigma1 sigma2 radians : R) (filter_size1 filter_size2 : nat) (bc : boundary) : res (image (list R)) :=
  apply_each3 sp 0%R [0%R; 0%R; 0%R] (fun plane => imgaussfilt_angle sg s plane sigma1 sigma2 radians filter_size1 filter_size2 bc 0%R) input.
