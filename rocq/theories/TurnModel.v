(** TurnModel.v - image_operations.h:4719-5132: turning a picture by any angle, by scattering its pixels
    (rotate_detail, rotate) and by sampling it at the turned-back positions (rotate_detail_shear_transformation).

    Floating point numbers are real numbers with exact arithmetic; std::hypot, std::atan2, std::sin and std::cos are
    exact.  The program's constant pi / 2 (std::numbers::pi_v<long double> / 2.0) is the parameter [hp]. *)
From Coq Require Import Reals.
From Verif Require Import Base ImageModel GeomModel OField JacobiModel SiftModel.
Open Scope nat_scope.

(** the value of std::numbers::pi_v<long double> / 2.0 in the x87 format: 64 significant bits *)
Definition half_pi_ld : R := (IZR 14488038916154245685 / IZR (2 ^ 63))%R.

(** std::hypot *)
Definition hypot (x y : R) : R := sqrt (x * x + y * y).
(** std::trunc, std::ceil and std::fmod *)
Definition rtrunc (r : R) : Z := if rleb 0 r then Int_part r else (- Int_part (- r))%Z.
Definition rceil (r : R) : Z := (- Int_part (- r))%Z.
Definition fmod (x m : R) : R := (x - m * IZR (rtrunc (x / m)))%R.

Section Turn.
  Context {A : Type}.
  Variable d : A.
  Variable hp : R.

  (** 4748-4755: the size of the smallest upright box around the turned picture *)
  Definition turned_width (w h : nat) (radians : R) : R :=
    let half_width := (INR w / 2)%R in let half_height := (INR h / 2)%R in
    (2 * hypot half_width half_height * Rabs (sin (atan2 half_width half_height + radians)))%R.
  Definition turned_height (w h : nat) (radians : R) : R :=
    let half_width := (INR w / 2)%R in let half_height := (INR h / 2)%R in
    (2 * hypot half_width half_height * Rabs (sin (atan2 half_height half_width + radians)))%R.

  (** 4763-4776: where the pixel (x, y) goes, before the conversion to indices.  A ratio of zero makes the
      weight infinite and the conversion of the product (infinite, or NaN at the centre) undefined. *)
  Definition turned_position (w h : nat) (radians : R) (x y : nat) : res (R * R) :=
    let half_width := (INR w / 2)%R in let half_height := (INR h / 2)%R in
    let distance_x := (INR x - half_width)%R in
    let distance_y := (INR y - half_height)%R in
    let distance := hypot distance_x distance_y in
    let angle := (atan2 distance_y distance_x + radians)%R in
    let width_ratio := (turned_width w h radians / INR w)%R in
    let height_ratio := (turned_height w h radians / INR h)%R in
    let ratio := if h <? w then height_ratio else width_ratio in
    if reqb ratio 0 then UB else
    let distance_weight := (1 / ratio)%R in
    let new_distance := (distance * distance_weight)%R in
    Ok (new_distance * cos angle + half_width, new_distance * sin angle + half_height)%R.

  (** 4748-4780: rotate_detail between the special angles *)
  Definition rotate_scatter (im : image A) (radians : R) : res (image A) :=
    let* w := get_width im in
    let* h := get_height im in
    for_range h (fun y out => for_range w (fun x out =>
      let* (px, py) := turned_position w h radians x y in
      let* v := at_ im [x; y] in
      let* tx := to_size_t px in
      let* ty := to_size_t py in
      at_set out [tx; ty] v) out) (image_sizes d [w; h]).

  (** 4721-4781  rotate_detail *)
  Definition rotate_detail_r (im : image A) (radians : R) : res (image A) :=
    let* _ := check2d im in
    if reqb radians 0 then Ok im
    else if reqb radians hp then rotate_quarter d im
    else rotate_scatter im radians.

  (** 5107-5111: while (radians > pi / 2) *)
  Fixpoint rotate_loop_r (fuel : nat) (im : image A) (radians : R) : option (res (image A * R)) :=
    match fuel with
    | O => None
    | S fuel' =>
        if rltb hp radians then
          match rotate_detail_r im hp with
          | Ok im' => rotate_loop_r fuel' im' (radians - hp)
          | Throw e => Some (Throw e)
          | UB => Some UB
          end
        else Some (Ok (im, radians))
    end.

  (** 5098-5115  rotate; [None] only when the loop runs out of fuel *)
  Definition rotate_r (fuel : nat) (im : image A) (radians : R) : option (res (image A)) :=
    match check2d im with
    | Ok _ =>
        match rotate_loop_r fuel im (fmod radians hp) with
        | None => None
        | Some r => Some (let* ir := r in rotate_detail_r (fst ir) (snd ir))
        end
    | Throw e => Some (Throw e)
    | UB => Some UB
    end.

  Section Shear.
    Variable interpolator : image A -> R -> R -> res A.

    (** 5020-5072: the general case of rotate_detail_shear_transformation *)
    Definition shear_general (im : image A) (radians : R) : res (image A) :=
      let cosine := cos radians in
      let sine := sin radians in
      let* hn := get_height im in
      let* wn := get_width im in
      let height := INR hn in
      let width := INR wn in
      let original_centre_width := ((width - 1) / 2)%R in
      let original_centre_height := ((height - 1) / 2)%R in
      let new_height_f := (Rabs (height * cosine) + Rabs (width * sine))%R in
      let new_width_f := (Rabs (width * cosine) + Rabs (height * sine))%R in
      let* new_height := to_size_t (IZR (rceil new_height_f)) in
      let* new_width := to_size_t (IZR (rceil new_width_f)) in
      let new_centre_width := ((INR new_width - 1) / 2)%R in
      let new_centre_height := ((INR new_height - 1) / 2)%R in
      for_range new_height (fun y_new out => for_range new_width (fun x_new out =>
        let x_prime := (INR x_new - new_centre_width)%R in
        let y_prime := (INR y_new - new_centre_height)%R in
        let x_original_centered := (x_prime * cosine + y_prime * sine)%R in
        let y_original_centered := (- x_prime * sine + y_prime * cosine)%R in
        let x_source := (x_original_centered + original_centre_width)%R in
        let y_source := (y_original_centered + original_centre_height)%R in
        let* v := interpolator im x_source y_source in
        at_set out [x_new; y_new] v) out) (image_sizes d [new_width; new_height]).

    (** 4979-5074  rotate_detail_shear_transformation *)
    Definition rotate_shear (im : image A) (radians : R) : res (image A) :=
      let* _ := check2d im in
      let radians := fmod radians (2 * (2 * hp)) in
      let radians := if rltb radians 0 then (radians + 2 * (2 * hp))%R else radians in
      if reqb radians 0 then Ok im
      else if reqb radians hp then rotate_quarter d im
      else shear_general im radians.
  End Shear.
End Turn.

(** ** the interpolators of 4783-4973 at real positions (InterpModel has them at rational positions) *)
(** 4833-4849: clamp and conversion to an integral element type with the range [lo, hi] *)
Definition fin_int_r (lo hi : Z) (total : R) : Z :=
  if rltb (IZR hi) total then hi else if rltb total (IZR lo) then lo else rtrunc total.

(** 4871-4887  cubic_kernel with the default a = -0.5 *)
Definition cubic_kernel_r (x : R) : R :=
  let a := (- (1 / 2))%R in
  let abs_x := Rabs x in
  let abs_x2 := (abs_x * abs_x)%R in
  let abs_x3 := (abs_x2 * abs_x)%R in
  if rleb abs_x 1 then ((a + 2) * abs_x3 - (a + 3) * abs_x2 + 1)%R
  else if rltb abs_x 2 then (a * abs_x3 - 5 * a * abs_x2 + 8 * a * abs_x - 4 * a)%R
  else 0%R.

Section InterpR.
  Context {A : Type} (conv : A -> R) (fin : R -> A) (zero : A).

  (** 4784-4850  bilinear_interpolate *)
  Definition bilinear_r (im : image A) (x y : R) : res A :=
    let* w := get_width im in
    let* h := get_height im in
    if rltb x 0 || rltb (INR w - 1) x || rltb y 0 || rltb (INR h - 1) y then Ok zero
    else
      let* x1 := to_size_t x in
      let* y1 := to_size_t y in
      let x2 := if w <=? x1 + 1 then x1 else x1 + 1 in
      let y2 := if h <=? y1 + 1 then y1 else y1 + 1 in
      let* q11 := at_ im [x1; y1] in
      let* q21 := at_ im [x2; y1] in
      let* q12 := at_ im [x1; y2] in
      let* q22 := at_ im [x2; y2] in
      let dx := (x - INR x1)%R in
      let dy := (y - INR y1)%R in
      let r1 := (conv q11 * (1 - dx) + conv q21 * dx)%R in
      let r2 := (conv q12 * (1 - dx) + conv q22 * dx)%R in
      Ok (fin (r1 * (1 - dy) + r2 * dy)%R).

  (** 4891-4973  default_bicubic_interpolator *)
  Definition bicubic_r (im : image A) (x y : R) : res A :=
    let* w := get_width im in
    let* h := get_height im in
    if rltb x 1 || rleb (INR w - 2) x || rltb y 1 || rleb (INR h - 2) y then bilinear_r im x y
    else
      let* x_floor := to_size_t x in
      let* y_floor := to_size_t y in
      let* total := for_range 4 (fun j total =>
        let v := y_floor - 1 + j in
        let* row := for_range 4 (fun i row =>
          let u := x_floor - 1 + i in
          let* p := at_ im [u; v] in
          Ok (row + conv p * cubic_kernel_r (x - INR u))%R) 0%R in
        Ok (total + row * cubic_kernel_r (y - INR v))%R) 0%R in
      Ok (fin total).
End InterpR.
