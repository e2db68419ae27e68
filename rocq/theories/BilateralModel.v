(** BilateralModel.v - image_operations.h:5754-5773 (get_center_pixel), 5904-6099 (bilateral_filter) and
    6100-6159 (DefaultPatchDistance, DefaultWeightCalculation).

    Floating point numbers are real numbers with exact arithmetic; a quotient 0/0 (NaN as a double, undefined after the
    conversion to an integer element) is [UB].  Integer elements are the real numbers they denote; their differences are
    taken without wrap-around (element types narrower than int, and floating types).  The complex branch (5919-5936) and
    the planewise version for RGB and MultiChannel pictures (6047-6080) are not modelled. *)
From Coq Require Import Reals.
From Verif Require Import Base ImageModel IndexModel GeomModel OField PixelModel ReduceModel SiftModel ConvModel.
Open Scope nat_scope.

(** 5754-5773  get_center_pixel *)
Definition get_center_pixel {A} (input : image A) : res A := atu_range input (get_center_location input).

(** 5775-5902  windowed_filter, as in ConvModel.v, for a filter that may fail *)
Definition windowed_filter_res {A} (d : A) (sg : nat -> nat -> list (nat * nat)) (s : nat -> list nat)
    (im : image A) (window_sizes : list nat) (filter : image A -> res A) (bc : boundary) (c : A) : res (image A) :=
  let dim := get_dimensionality im in
  if negb (dim =? length window_sizes) then Throw RuntimeError
  else
    let* padded :=
      if dim =? 2 then
        let* ww := vget window_sizes 0 in
        let* wh := vget window_sizes 1 in
        padded_image d sg im ww wh bc c
      else Ok im in
    let* padded :=
      for_list (s (count im)) (fun idx padded =>
        let* indices := linear_index_to_indices idx (dims im) in
        let padded_indices :=
          if dim =? 2 then map (fun iw => fst iw + snd iw) (combine indices window_sizes) else indices in
        let* window := subimage d padded window_sizes padded_indices d in
        let* v := filter window in
        at_range_set padded padded_indices v) padded in
    subimage d padded (dims im) (map (fun n => n / 2) (dims padded)) d.

(** 6026-6038  the distance of two positions: vector1[i] - vector2[i] is a std::size_t *)
Definition spatial_distance (vector1 vector2 : list nat) : res R :=
  if negb (length vector1 =? length vector2) then Throw RuntimeError
  else
    let* sum_of_squares := for_range (length vector1) (fun i s =>
      let* a := vget vector1 i in
      let* b := vget vector2 i in
      let d := IZR (w64 (Z.of_nat a - Z.of_nat b)) in
      Ok (s + d * d)%R) 0%R in
    Ok (sqrt sum_of_squares).

(** 6018-6021  the distance of two pixel values *)
Definition range_distance (element1 element2 : R) : R := sqrt ((element1 - element2) * (element1 - element2)).

Section Bilateral.
  (** [cast] is the conversion of the weighted mean to the element type *)
  Variable cast : R -> R.
  Variables range_kernel spatial_kernel : R -> R.

  (** 5962-5990  bilateral_filter_spatial_kernel *)
  Definition bilateral_filter_spatial_kernel (window_sizes : list nat) : res (image R) :=
    let* output := image_sizes_range 0%R window_sizes in
    let center_location := get_center_location output in
    for_range (count output) (fun idx output =>
      let* indices := linear_index_to_indices idx (dims output) in
      let* distance := spatial_distance indices center_location in
      atu_range_set output indices (spatial_kernel distance)) output.

  (** 5904-5960  bilateral_filter_detail *)
  Definition bilateral_filter_detail (input : image R) (spatial_kernel_weight : image R) : res R :=
    let* center_pixel := get_center_pixel input in
    let* sums := for_range (count input) (fun idx sums =>
      let* indices := linear_index_to_indices idx (dims input) in
      let* p := atu_range input indices in
      let range_kernel_result := range_kernel (range_distance p center_pixel) in
      let* spatial_kernel_result := atu_range spatial_kernel_weight indices in
      Ok ((fst sums + p * range_kernel_result * spatial_kernel_result)%R,
          (snd sums + range_kernel_result * spatial_kernel_result)%R)) (0%R, 0%R) in
    if reqb (snd sums) 0 then UB else Ok (cast (fst sums / snd sums)%R).

  (** 5992-6045  bilateral_filter; the spatial kernel is computed anew for every window *)
  Definition bilateral_filter (sg : nat -> nat -> list (nat * nat)) (s : nat -> list nat)
      (input : image R) (window_sizes : list nat) (bc : boundary) (c : R) : res (image R) :=
    windowed_filter_res 0%R sg s input window_sizes (fun window =>
      let* k := bilateral_filter_spatial_kernel window_sizes in
      bilateral_filter_detail window k) bc c.
End Bilateral.

(** 6100-6142  DefaultPatchDistance: the mean of the squared differences of two patches; [r] is a value the parallel
    sum may give *)
Definition patch_distance (large_window : image R) (p_center q_center patch_sizes : list nat) (r : res R) : Prop :=
  match (let* p_image := subimage 0%R large_window patch_sizes p_center 0%R in
         let* q_image := subimage 0%R large_window patch_sizes q_center 0%R in
         pixelwise2 (fun pixel1 pixel2 => ((pixel1 - pixel2) * (pixel1 - pixel2))%R) p_image q_image) with
  | Ok diff_image => exists s, im_sum Rplus 0%R diff_image s /\
      r = if count diff_image =? 0 then UB else Ok (s / INR (count diff_image))%R
  | Throw e => r = Throw e
  | UB => r = UB
  end.

(** 6144-6159  DefaultWeightCalculation *)
Definition default_weight (h dist : R) : R := exp (- dist / (h * h)).
