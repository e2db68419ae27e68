(** FourierModel.v - image_operations.h: dct3_one_plane, dct3, idct3_one_plane, dct2, idct2, dft2, idft2 over the real
    numbers.  Floating point types are Coq's real numbers; std::complex is a pair. *)
From Coq Require Import Reals.
From Verif Require Import Base ImageModel GeomModel PixelModel.
Open Scope nat_scope.

(** SQRT2 / 2 for index zero, otherwise 1 *)
Definition alpha (k : nat) : R := if k =? 0 then (sqrt 2 / 2)%R else 1%R.
(** PI / (2 N) * (2 m + 1) * x *)
Definition dct_angle (N m x : nat) : R := (PI / (2 * INR N) * (2 * INR m + 1) * INR x)%R.

(** image_operations.h:3611-3659  dct3_one_plane.  The rows are computed in parallel: [sg] is the order of the pixels.
    (3661-3733: the overload with an execution policy computes the same expression in another order) *)
Definition dct3_one_plane (sg : nat -> nat -> list (nat * nat)) (input : list (image R)) (plane_index : nat) : res (image R) :=
  let* im0 := vget input 0 in
  let* N1 := get_width im0 in
  let* N2 := get_height im0 in
  let N3 := length input in
  let alpha1 := alpha plane_index in
  let* pl := vget input plane_index in
  let* ow := get_width pl in
  let* oh := get_height pl in
  for_list (sg oh ow) (fun p output =>
    let '(y, x) := p in
    let alpha2 := alpha y in
    let alpha3 := alpha x in
    let* sum := for_range N3 (fun inner_z sum =>
      let* plane := vget input inner_z in
      let* h := get_height plane in
      let* w := get_width plane in
      for_range h (fun inner_y sum => for_range w (fun inner_x sum =>
        let l1 := dct_angle N1 inner_x x in
        let l2 := dct_angle N2 inner_y y in
        let l3 := dct_angle N3 inner_z plane_index in
        let* v := at_ plane [inner_x; inner_y] in
        Ok (sum + v * cos l1 * cos l2 * cos l3)%R) sum) sum) 0%R in
    at_set output [x; y] (8 * alpha1 * alpha2 * alpha3 * sum / (INR N1 * INR N2 * INR N3))%R) (image_sizes 0%R [ow; oh]).

(** 3735-3750  dct3 *)
Definition dct3 (sg : nat -> nat -> list (nat * nat)) (input : list (image R)) : res (list (image R)) :=
  mapM (fun i => dct3_one_plane sg input i) (seq 0 (length input)).

(** 3752-3798  idct3_one_plane *)
Definition idct3_one_plane (sg : nat -> nat -> list (nat * nat)) (input : list (image R)) (plane_index : nat) : res (image R) :=
  let* im0 := vget input 0 in
  let* N1 := get_width im0 in
  let* N2 := get_height im0 in
  let N3 := length input in
  let* pl := vget input plane_index in
  let* width := get_width pl in
  let* height := get_height pl in
  for_list (sg height width) (fun p output =>
    let '(y, x) := p in
    let* sum := for_range N3 (fun inner_z sum =>
      let* plane := vget input inner_z in
      let* h := get_height plane in
      let* w := get_width plane in
      for_range h (fun inner_y sum => for_range w (fun inner_x sum =>
        let l1 := dct_angle N1 x inner_x in
        let l2 := dct_angle N2 y inner_y in
        let l3 := dct_angle N3 plane_index inner_z in
        let alpha1 := alpha inner_x in
        let alpha2 := alpha inner_y in
        let alpha3 := alpha inner_z in
        let* v := at_ plane [inner_x; inner_y] in
        Ok (sum + alpha1 * alpha2 * alpha3 * v * cos l1 * cos l2 * cos l3)%R) sum) sum) 0%R in
    at_set output [x; y] sum) (image_sizes 0%R [width; height]).

(** 3813-3828, 3830-3845  dct2, idct2: one plane after conversion to double; three-channel images plane by plane *)
Definition dct2 {A} (conv : A -> R) sg (input : image A) : res (image R) :=
  let* v := cast conv input in dct3_one_plane sg [v] 0.
Definition idct2 {A} (conv : A -> R) sg (input : image A) : res (image R) :=
  let* v := cast conv input in idct3_one_plane sg [v] 0.
Definition dct2_rgb {A} (conv : A -> R) (d : A) s sg (input : image (list A)) : res (image (list R)) :=
  apply_each3 s d [] (dct2 conv sg) input.
Definition idct2_rgb {A} (conv : A -> R) (d : A) s sg (input : image (list A)) : res (image (list R)) :=
  apply_each3 s d [] (idct2 conv sg) input.

(** ** Fourier transform *)
(** 2 pi (x m / W + y n / H) : the products x * m and y * n are std::size_t *)
Definition dft_angle (W H x y m n : nat) : R :=
  (2 * PI * (INR (wn (Z.of_nat x * Z.of_nat m)) / INR W + INR (wn (Z.of_nat y * Z.of_nat n)) / INR H))%R.

(** 735-764  dft2.  [conv] is the conversion of an element to floating point, [neg] that of its negation (which for
    unsigned int and wider unsigned types is taken modulo 2^32 or 2^64) *)
Definition dft2 {A} (conv neg : A -> R) (input : image A) : res (image (R * R)) :=
  let* W := get_width input in
  let* H := get_height input in
  let normalization_factor := sqrt (1 / INR (wn (Z.of_nat W * Z.of_nat H))) in
  for_range H (fun y output => for_range W (fun x output =>
    let* sums := for_range H (fun n sums => for_range W (fun m (sums : R * R) =>
      let* a := atu input [m; n] in
      let t := dft_angle W H x y m n in
      Ok (fst sums + conv a * cos t, snd sums + neg a * sin t)%R) sums) (0%R, 0%R) in
    atu_set output [x; y] (normalization_factor * fst sums, normalization_factor * snd sums)%R) output)
    (image_sizes (0%R, 0%R) [W; H]).

Definition cmul (a b : R * R) : R * R := (fst a * fst b - snd a * snd b, fst a * snd b + snd a * fst b)%R.
Definition cadd (a b : R * R) : R * R := (fst a + fst b, snd a + snd b)%R.

(** 766-791  idft2 *)
Definition idft2 (input : image (R * R)) : res (image (R * R)) :=
  let* W := get_width input in
  let* H := get_height input in
  let normalization_factor := sqrt (1 / INR (wn (Z.of_nat W * Z.of_nat H))) in
  for_range H (fun y output => for_range W (fun x output =>
    let* sum := for_range H (fun n sum => for_range W (fun m sum =>
      let* a := atu input [m; n] in
      let t := dft_angle W H x y m n in
      Ok (cadd sum (cmul a (cadd (cos t, 0%R) (cmul (0%R, 1%R) (sin t, 0%R)))))) sum) (0%R, 0%R) in
    atu_set output [x; y] (normalization_factor * fst sum, normalization_factor * snd sum)%R) output)
    (image_sizes (0%R, 0%R) [W; H]).
