(** GaussModel.v - the Gaussian figures, imgaussfilt and difference_of_gaussian of image_operations.h.

    Element type double, modelled by the real numbers (no rounding, no NaN): a standard deviation of 0 divides by
    zero in the code, so nothing is claimed about it.  The std::reduce inside [sum] may add in any order; over the
    reals every order gives the fold below.  [sg] is the order of the two-dimensional parallel loops, [s] that of the
    loop over the output pixels of conv2. *)
From Coq Require Import Reals.
From Verif Require Import Base ImageModel IndexModel GeomModel PixelModel ConvModel.
Open Scope nat_scope.

(** image_operations.h:2181-2195  normalDistribution1D (not normalised) *)
Definition normal1d (x sd : R) : R := exp (- x * x / (2 * sd * sd)).

(** image_operations.h:4288-4305  sum of an image of doubles *)
Definition total (im : image R) : R := fold_left Rplus (pix im) 0%R.

(** image_operations.h:2663-2686  gaussianFigure1D; the running sum is carried along *)
Definition gaussian_figure1d (size center : nat) (sd : R) (normalize : bool) : res (image R) :=
  let* (row_vector, sum_value) := for_range size (fun x st =>
    let val := normal1d (INR x - INR center) sd in
    let* r := at_set (fst st) [x; 0] val in
    Ok (r, (snd st + val)%R)) (image_sizes 0%R [size; 1], 0%R) in
  if normalize then divides_scalar Rdiv sum_value row_vector else Ok row_vector.

(** image_operations.h:2688-2717  gaussianFigure2D with two standard deviations *)
Definition gaussian_figure2d (xsize ysize centerx centery : nat) (sdx sdy : R) (normalize : bool) : res (image R) :=
  let* vx := gaussian_figure1d xsize centerx sdx false in
  let* vy := gaussian_figure1d ysize centery sdy false in
  let* (output, sum_value) := for_range ysize (fun y st => for_range xsize (fun x st =>
    let* a := at_ vx [x; 0] in
    let* b := at_ vy [y; 0] in
    let* r := at_set (fst st) [x; y] (a * b)%R in
    Ok (r, (snd st + a * b)%R)) st) (image_sizes 0%R [xsize; ysize], 0%R) in
  if normalize then divides_scalar Rdiv sum_value output else Ok output.

(** image_operations.h:2719-2756  gaussianFigure2D, general elliptical Gaussian (variances s1 and s2, correlation rho).
    The square roots and the division are those of the reals: the claims ask for positive variances and |rho| < 1. *)
Definition elliptic_value (s1 s2 rho factor x1 x2 : R) : R :=
  let sigma1 := sqrt s1 in let sigma2 := sqrt s2 in
  let normalize_factor := (factor / (2 * PI * sigma1 * sigma2 * sqrt (1 - rho * rho)))%R in
  let exp_para := (- (1) / (2 * s1 * s2 * (1 - rho * rho)))%R in
  (normalize_factor * exp (exp_para * (s2 * (x1 * x1) - 2 * rho * sigma1 * sigma2 * x1 * x2 + s1 * (x2 * x2))))%R.
Definition gaussian_figure2d_elliptic (sg : nat -> nat -> list (nat * nat)) (xsize ysize centerx centery : nat)
    (s1 s2 rho factor : R) : res (image R) :=
  for_list (sg ysize xsize) (fun p o =>
    at_set o [snd p; fst p] (elliptic_value s1 s2 rho factor (INR (snd p) - INR centerx) (INR (fst p) - INR centery)))
    (image_sizes 0%R [xsize; ysize]).

(** image_operations.h:5528-5533  computeFilterSizeFromSigma, and its conversion to int by the callers (5583-5584,
    5729-5730): undefined outside the range of int.  A negative size (standard deviations of -1/2 or less) becomes a huge
    unsigned one in the code; this is not modelled, the model says undefined. *)
Definition ceilZ (x : R) : Z := (- Int_part (- x))%Z.
Definition filter_size_of (sigma : R) : res nat :=
  let z := (2 * ceilZ (2 * sigma) + 1)%Z in
  if (0 <=? z)%Z && (z <? 2 ^ 31)%Z then Ok (Z.to_nat z) else UB.

(** image_operations.h:5602-5644  imgaussfilt with two standard deviations and two filter sizes.  The centre
    ((double)n + 1.0) / 2.0 of the masks and the centre (double)W / 2.0 of the crop are converted to std::size_t by the
    parameters they are passed to. *)
Definition imgaussfilt2 (sg : nat -> nat -> list (nat * nat)) (s : nat -> list nat) (input : image R)
    (sigma1 sigma2 : R) (filter_size1 filter_size2 : nat) (bc : boundary) (c : R) : res (image R) :=
  let* _ := check2d input in
  let* padded := padded_image 0%R sg input filter_size1 filter_size2 bc c in
  let* mask_x := gaussian_figure1d filter_size1 ((filter_size1 + 1) / 2) sigma1 false in
  let* mask_x := divides_scalar Rdiv (total mask_x) mask_x in
  let* output := conv2 0%R Rplus Rmult s padded mask_x true in
  let* figure_y := gaussian_figure1d filter_size2 ((filter_size2 + 1) / 2) sigma2 false in
  let* mask_y := transpose_policy 0%R sg figure_y in
  let* mask_y := divides_scalar Rdiv (total mask_y) mask_y in
  let* output := conv2 0%R Rplus Rmult s output mask_y true in
  let* iw := get_width input in let* ih := get_height input in
  let* ow := get_width output in let* oh := get_height output in
  subimage 0%R output [iw; ih] [ow / 2; oh / 2] 0%R.

(** image_operations.h:5563-5600  imgaussfilt with one standard deviation; size 0 asks for the computed size *)
Definition imgaussfilt (sg : nat -> nat -> list (nat * nat)) (s : nat -> list nat) (input : image R)
    (sigma : R) (filter_size : nat) (bc : boundary) (c : R) : res (image R) :=
  let* _ := check2d input in
  let* n := (if filter_size =? 0 then filter_size_of sigma else Ok filter_size) in
  imgaussfilt2 sg s input sigma sigma n n bc c.

(** image_operations.h:5720-5732  difference_of_gaussian *)
Definition difference_of_gaussian (sg : nat -> nat -> list (nat * nat)) (s : nat -> list nat) (input : image R)
    (sigma1 sigma2 : R) : res (image R) :=
  let* n1 := filter_size_of sigma1 in
  let* a := imgaussfilt sg s input sigma1 n1 BMirror 0%R in
  let* n2 := filter_size_of sigma2 in
  let* b := imgaussfilt sg s input sigma2 n2 BMirror 0%R in
  subtract Rminus a b.
