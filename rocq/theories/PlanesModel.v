(** PlanesModel.v - image_operations.h: the versions for colours of the turn by sampling, of the inverse lens and of the bilateral
    filter, and the turn by an angle in degrees.

    [d] is a value-initialised channel; a colour is the list of its channels.  The three planes are worked on by three tasks that
    are joined in order (PixelModel.apply_each3). *)
From Coq Require Import Reals.
From Verif Require Import Base ImageModel GeomModel PixelModel TurnModel FisheyeModel BilateralModel.
From Coq Require Import Rdefinitions.
Open Scope nat_scope.

(** 4622-4630  gaussian_fisheye with an integral D0 *)
Definition gaussian_fisheye_int {A} (d : A) sg (im : image A) (D0 : Z) : res (image A) :=
  let* _ := check2d im in gaussian_fisheye d sg inverse_root im (IZR D0).

(** 4632-4642  gaussian_fisheye of RGB, RGB_DOUBLE and HSV images *)
Definition gaussian_fisheye3 {A} (d : A) s sg (im : image (list A)) (D0 : R) : res (image (list A)) :=
  let* _ := check2d im in apply_each3 s d [d; d; d] (fun plane => gaussian_fisheye d sg inverse_root plane D0) im.

Section Turn.
  Context {A : Type} (d : A) (hp : R) (interpolator : image A -> R -> R -> res A).

  (** 5075-5084  rotate_detail_shear_transformation of RGB, RGB_DOUBLE and HSV images *)
  Definition rotate_shear3 s (im : image (list A)) (radians : R) : res (image (list A)) :=
    let* _ := check2d im in apply_each3 s d [d; d; d] (fun plane => rotate_shear d hp interpolator plane radians) im.

  (** 5075-5084  the same function on MultiChannel<T, n> *)
  Definition rotate_shear_mc s n (im : image (list A)) (radians : R) : res (image (list A)) :=
    let* _ := check2d im in apply_each_mc s n d (repeat d n) (fun plane => rotate_shear d hp interpolator plane radians) im.

  (** 5086-5095  rotate_detail_shear_transformation_degree of grey and of colour images; pi_v<long double> is 2 * hp *)
  Definition rotate_shear_degree (im : image A) (degrees : R) : res (image A) :=
    let* _ := check2d im in rotate_shear d hp interpolator im (degrees * (2 * hp) / 180)%R.
  Definition rotate_shear_degree3 s (im : image (list A)) (degrees : R) : res (image (list A)) :=
    let* _ := check2d im in rotate_shear3 s im (degrees * (2 * hp) / 180)%R.
End Turn.

(** 6045-6077  bilateral_filter of colour images; the planes are padded with ElementT{} *)
Definition bilateral_filter3 (cast range_kernel spatial_kernel : R -> R) s sg s' (im : image (list R)) window_sizes bc : res (image (list R)) :=
  apply_each3 s 0%R [0; 0; 0]%R (fun plane => bilateral_filter cast range_kernel spatial_kernel sg s' plane window_sizes bc 0) im.
