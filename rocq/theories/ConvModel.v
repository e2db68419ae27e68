(** ConvModel.v - conv2, the N-dimensional convolution and windowed_filter.

    Element arithmetic is a parameter: [zero] is [OutputT{}], [add] the += of the accumulator type and
    [mul] the product after the casts to the accumulator type. *)
From Verif Require Import Base ImageModel IndexModel GeomModel PixelModel.

(** [ptr[i]] with a signed subscript, [base] the offset of [ptr] in the pixel vector *)
Definition vgetz {A} (l : list A) (i : Z) : res A :=
  if (i <? 0)%Z then UB else vget l (Z.to_nat i).

(** [for (std::ptrdiff_t i = a; i <= b; ++i)] *)
Definition zrange (a b : Z) : list Z := map (fun k => (a + Z.of_nat k)%Z) (seq 0 (Z.to_nat (b - a + 1))).

Section Conv2.
  Context {A B C : Type} (zero : C) (add : C -> C -> C) (mul : A -> B -> C).

  (** image_operations.h:580-611  the value of one output pixel *)
  Definition conv2_pixel (x : image A) (yf : image B) (xw xh yw yh out_w idx : nat) : res C :=
    let out_y := Z.of_nat (idx / out_w) in
    let out_x := Z.of_nat (idx mod out_w) in
    let y1_start := Z.max 0 (out_y - Z.of_nat yh + 1) in
    let y1_end := Z.min (Z.of_nat xh - 1) out_y in
    let x1_start := Z.max 0 (out_x - Z.of_nat yw + 1) in
    let x1_end := Z.min (Z.of_nat xw - 1) out_x in
    let offset_y := (Z.of_nat yh - 1 - out_y)%Z in
    let offset_x := (Z.of_nat yw - 1 - out_x)%Z in
    for_list (zrange y1_start y1_end) (fun y1 sum =>
      let* x_row := loc_unchecked x [0; wn y1] in
      let* y_f_row := loc_unchecked yf [0; wn (offset_y + y1)] in
      for_list (zrange x1_start x1_end) (fun x1 sum =>
        let* a := vgetz (pix x) (Z.of_nat x_row + x1) in
        let* b := vgetz (pix yf) (Z.of_nat y_f_row + (offset_x + x1)) in
        Ok (add sum (mul a b))) sum) zero.

  (** image_operations.h:549-625 (and 627-639: the overload without a policy uses par_unseq).
      The loop over the output pixels runs in the order [s]. *)
  Definition conv2 (s : nat -> list nat) (x : image A) (y : image B) (is_size_same : bool) : res (image C) :=
    let* xw := get_width x in let* xh := get_height x in
    let* yw := get_width y in let* yh := get_height y in
    let out_w := usub (xw + yw) 1 in
    let out_h := usub (xh + yh) 1 in
    let* y_flipped := image_data (rev (pix y)) (dims y) in
    let* output :=
      for_list (s (out_w * out_h)) (fun idx out =>
        let* sum := conv2_pixel x y_flipped xw xh yw yh out_w idx in
        atu_set out [idx mod out_w; idx / out_w] sum) (image_sizes zero [out_w; out_h]) in
    if is_size_same then subimage zero output [xw; xh] [out_w / 2; out_h / 2] zero
    else Ok output.
End Conv2.

Section Convolution.
  Context {A : Type} (zero : A) (add : A -> A -> A) (f : A -> A -> A).

  (** image_operations.h:646-686  convolution_detail.  The running indices are added to before and
      subtracted from after the inner call, so each iteration starts from the same values. *)
  Fixpoint convolution_detail (level : nat) (im kernel : image A) (oi i2 i3 : nat) (output : image A)
    : res (image A) :=
    let* kernel_size := vget (dims kernel) level in
    let* image_size := vget (dims im) level in
    for_range kernel_size (fun i output =>
      for_range image_size (fun j output =>
        let* so := get_stride output level in
        let* si := get_stride im level in
        let* sk := get_stride kernel level in
        let oi' := oi + (i + j) * so in
        let i2' := i2 + j * si in
        let i3' := i3 + i * sk in
        match level with
        | O =>
            let* o := get output oi' in
            let* a := get im i2' in
            let* b := get kernel i3' in
            set_index output oi' (add o (f a b))
        | S level' => convolution_detail level' im kernel oi' i2' i3' output
        end) output) output.

  (** image_operations.h:5734-5752  get_center_location: size / 2.0 converted back to size_t *)
  Definition get_center_location (im : image A) : list nat := map (fun n => n / 2) (dims im).

  (** image_operations.h:691-733  convolution; std::ranges::transform stops at the shorter size list.
      With is_size_same the crop is taken from the input [image] (725-727). *)
  Definition convolution (im kernel : image A) (is_size_same : bool) : res (image A) :=
    let output_size := map (fun lr => usub (fst lr + snd lr) 1) (combine (dims im) (dims kernel)) in
    let* output := image_sizes_range zero output_size in
    let* output := convolution_detail (usub (length (dims im)) 1) im kernel 0 0 0 output in
    if is_size_same then subimage zero im (dims im) (get_center_location im) zero
    else Ok output.
End Convolution.

Section Window.
  Context {A : Type} (d : A).

  (** image_operations.h:5775-5902  windowed_filter (the branch without OpenMP; progress reporting
      omitted).  [sg] orders the padding loops, [s] the loop over the pixels; [filter] is pure. *)
  Definition windowed_filter (sg : nat -> nat -> list (nat * nat)) (s : nat -> list nat)
      (im : image A) (window_sizes : list nat) (filter : image A -> A) (bc : boundary) (c : A) : res (image A) :=
    let dim := get_dimensionality im in
    if negb (dim =? length window_sizes) then Throw RuntimeError
    else
      let* padded :=
        if dim =? 2 then
          let* ww := vget window_sizes 0 in
          let* wh := vget window_sizes 1 in
          padded_image d sg im ww wh bc c
        else Ok im in
      let* padded :=
        for_list (s (count im)) (fun idx padded =>
          let* indices := linear_index_to_indices idx (dims im) in
          let padded_indices :=
            if dim =? 2 then map (fun iw => fst iw + snd iw) (combine indices window_sizes) else indices in
          let* window := subimage d padded window_sizes padded_indices d in
          at_range_set padded padded_indices (filter window)) padded in
      subimage d padded (dims im) (map (fun n => n / 2) (dims padded)) d.
End Window.
