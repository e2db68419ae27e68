(** FisheyeModel.v - image_operations.h:4435-4642: the two fisheye lenses.

    Floating point numbers are real numbers with exact arithmetic. *)
From Coq Require Import Reals.
From Verif Require Import Base ImageModel GeomModel OField JacobiModel SiftModel TurnModel.
Open Scope nat_scope.

(** std::pow for a base that is not negative and a positive exponent *)
Definition pow_r (x y : R) : R := if reqb x 0 then 0%R else Rpower x y.
(** std::round: halves away from zero *)
Definition rround (r : R) : Z := if rleb 0 r then Int_part (r + 1 / 2) else (- Int_part (- r + 1 / 2))%Z.

(** 4450-4453: the factor by which a pixel at the given distance is pulled to the centre.  Modelled for D0 > 0 and N > 0. *)
Definition butterworth_weight (distance D0 N : R) : R :=
  (1 / Rpower (1 + pow_r (distance / D0) (2 * N)) (1 / 2))%R.

Section Fisheye.
  Context {A : Type}.
  Variable d : A.

  (** 4435-4464  butterworth_fisheye *)
  Definition butterworth_fisheye (im : image A) (D0 N : R) : res (image A) :=
    let* _ := check2d im in
    let* w := get_width im in
    let* h := get_height im in
    for_range h (fun y out => for_range w (fun x out =>
      let distance_x := (INR x - INR w / 2)%R in
      let distance_y := (INR y - INR h / 2)%R in
      let distance := hypot distance_x distance_y in
      let angle := atan2 distance_y distance_x in
      let weight := butterworth_weight distance D0 N in
      let new_distance := (distance * weight)%R in
      let new_distance_x := (new_distance * cos angle)%R in
      let new_distance_y := (new_distance * sin angle)%R in
      let* v := at_ im [x; y] in
      let* tx := to_size_t (new_distance_x + INR w / 2) in
      let* ty := to_size_t (new_distance_y + INR h / 2) in
      at_set out [tx; ty] v) out) (image_sizes d [w; h]).

  (** 4468-4507  GaussianFisheyeInverseRootFinder *)
  Fixpoint bisect (iterations : nat) (r_out D0 low high : R) : R * R :=
    match iterations with
    | O => (low, high)
    | S n =>
        let mid := (low + (high - low) / 2)%R in
        let f_mid := (mid * exp (- (mid * mid) / (2 * D0 * D0)))%R in
        if rltb f_mid r_out then bisect n r_out D0 mid high else bisect n r_out D0 low mid
    end.
  Definition inverse_root (r_out D0 : R) : R :=
    if rleb r_out 0 then 0%R else
    let max_r_out := (D0 * exp (- (1 / 2)))%R in
    if rleb max_r_out r_out then D0 else
    let '(low, high) := bisect 50 r_out D0 0%R D0 in
    (low + (high - low) / 2)%R.

  (** 4511-4541  FisheyePixelMapper::operator(); the output has the size of the input (4570, 4613) *)
  Definition fisheye_pixel (root_finder : R -> R -> R) (im : image A) (D0 : R) (x y : nat) (out : image A) : res (image A) :=
    let* ow := get_width out in
    let* oh := get_height out in
    let* w := get_width im in
    let* h := get_height im in
    let distance_x := (INR x - INR ow / 2)%R in
    let distance_y := (INR y - INR oh / 2)%R in
    let r_out := hypot distance_x distance_y in
    let r_in := root_finder r_out D0 in
    let scale := if reqb r_out 0 then 1%R else (r_in / r_out)%R in
    let in_x_f := (distance_x * scale + INR w / 2)%R in
    let in_y_f := (distance_y * scale + INR h / 2)%R in
    let* in_x := to_size_t (IZR (rround in_x_f)) in
    let* in_y := to_size_t (IZR (rround in_y_f)) in
    if (in_x <? w) && (in_y <? h) then
      let* v := atu im [in_x; in_y] in atu_set out [x; y] v
    else Ok out.

  (** 4545-4589  gaussian_fisheye with an execution policy: every index in the order of the schedule *)
  Definition gaussian_fisheye_policy (s : nat -> list nat) (root_finder : R -> R -> R) (im : image A) (D0 : R) : res (image A) :=
    let* _ := check2d im in
    let* w := get_width im in
    let* h := get_height im in
    for_list (s (w * h)) (fun index out => fisheye_pixel root_finder im D0 (index mod w) (index / w) out) (image_sizes d [w; h]).

  (** 4591-4622  gaussian_fisheye with OpenMP *)
  Definition gaussian_fisheye (sg : nat -> nat -> list (nat * nat)) (root_finder : R -> R -> R) (im : image A) (D0 : R) : res (image A) :=
    let* _ := check2d im in
    let* w := get_width im in
    let* h := get_height im in
    for_list (sg h w) (fun p out => fisheye_pixel root_finder im D0 (snd p) (fst p) out) (image_sizes d [w; h]).
End Fisheye.
