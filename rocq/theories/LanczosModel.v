(** LanczosModel.v - image_operations.h:2367-2661, Lanczos resampling of images of doubles.

    Doubles are real numbers: the final std::clamp to the finite range of double is the identity.  The long double
    intermediate values of the kernel are reals too. *)
From Coq Require Import Reals.
From Verif Require Import Base ImageModel GeomModel ConvModel BmpModel OField.
Open Scope nat_scope.

(** std::numeric_limits<double>::epsilon() *)
Definition epsilon : R := (/ 2 ^ 52)%R.

(** image_operations.h:2367-2387  lanczos_kernel *)
Definition lanczos_kernel (x : R) (a : nat) : R :=
  if rltb (Rabs x) epsilon then 1%R
  else if rltb (Rabs x) (INR a) then
    let pi_x := (PI * x)%R in (INR a * sin pi_x * sin (pi_x / INR a) / (pi_x * pi_x))%R
  else 0%R.

(** int arithmetic: undefined outside the range of int *)
Definition int_ok (z : Z) : res Z := if (- 2 ^ 31 <=? z)%Z && (z <? 2 ^ 31)%Z then Ok z else UB.

(** std::clamp(i, 0, hi): undefined when hi < 0 *)
Definition clamp0 (i hi : Z) : res Z := if (hi <? 0)%Z then UB else Ok (Z.max 0 (Z.min i hi)).

(** image_operations.h:2429-2459  the weighted sum of the pixels around one source position, and the sum of the weights *)
Definition lanczos_sums (input : image R) (old_width old_height a : nat) (x_old y_old : R) : res (R * R) :=
  let* fx := int_ok (Int_part x_old) in
  let* fy := int_ok (Int_part y_old) in
  let* x_min := int_ok (fx - Z.of_nat a + 1) in
  let* x_max := int_ok (fx + Z.of_nat a) in
  let* y_min := int_ok (fy - Z.of_nat a + 1) in
  let* y_max := int_ok (fy + Z.of_nat a) in
  for_list (zrange y_min y_max) (fun j st => for_list (zrange x_min x_max) (fun i st =>
    let* ci := clamp0 i (s32 (Z.of_nat old_width) - 1) in
    let* cj := clamp0 j (s32 (Z.of_nat old_height) - 1) in
    let weight := (lanczos_kernel (x_old - IZR i) a * lanczos_kernel (y_old - IZR j) a)%R in
    if Req_EM_T weight 0 then Ok st else
    let* v := at_ input [Z.to_nat ci; Z.to_nat cj] in
    Ok (fst st + v * weight, snd st + weight)%R) st) (0%R, 0%R).

(** image_operations.h:2395-2487 (sequential, with the order of the loops) and 2496-2593 (with a policy: any order of the
    linear indices); [s] is the order of the linear indices *)
Definition lanczos_resample (s : nat -> list nat) (input : image R) (new_width new_height a : nat) : res (image R) :=
  let* _ := check2d input in
  let* old_width := get_width input in
  let* old_height := get_height input in
  let x_ratio := (INR old_width / INR new_width)%R in
  let y_ratio := (INR old_height / INR new_height)%R in
  for_list (s (new_width * new_height)) (fun idx output =>
    let y_new := idx / new_width in
    let x_new := idx mod new_width in
    let x_old := ((INR x_new + / 2) * x_ratio - / 2)%R in
    let y_old := ((INR y_new + / 2) * y_ratio - / 2)%R in
    let* (pixel_value, total_weight) := lanczos_sums input old_width old_height a x_old y_old in
    if Req_EM_T total_weight 0 then Ok output else at_set output [x_new; y_new] (pixel_value / total_weight)%R)
    (image_sizes 0%R [new_width; new_height]).
