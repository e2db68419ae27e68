(** InterpModel.v - image_operations.h: bilinear_interpolate, cubic_kernel, default_bicubic_interpolator,
    cubic_interpolate, bicubicPolate, copyResizeBicubic.  Floating point positions and values are rational numbers
    (every finite double is one); the arithmetic on them is exact. *)
From Coq Require Import QArith Qround Qminmax.
From Verif Require Import Base ImageModel GeomModel.
Open Scope nat_scope.

Definition Qltb (a b : Q) : bool := negb (Qle_bool b a).
Definition qn (n : nat) : Q := inject_Z (Z.of_nat n).
(** static_cast<std::size_t> of a floating value that is not negative *)
Definition to_size (q : Q) : nat := Z.to_nat (Qfloor q).
(** static_cast of a floating value to an integral type in range: truncation *)
Definition trunc (q : Q) : Z := Z.quot (Qnum q) (Zpos (Qden q)).

(** 4833-4846  the clamp and conversion back to an integral element type with the range [lo, hi] *)
Definition fin_int (lo hi : Z) (total : Q) : Z :=
  if Qltb (inject_Z hi) total then hi else if Qltb total (inject_Z lo) then lo else trunc total.

Section Interp.
  Context {A : Type} (conv : A -> Q) (fin : Q -> A) (zero : A).

  (** 4784-4850  bilinear_interpolate *)
  Definition bilinear_interpolate (im : image A) (x y : Q) : res A :=
    let* w := get_width im in
    let* h := get_height im in
    if Qltb x 0 || Qltb (qn w - 1) x || Qltb y 0 || Qltb (qn h - 1) y then Ok zero
    else
      let x1 := to_size x in
      let y1 := to_size y in
      let x2 := if w <=? x1 + 1 then x1 else x1 + 1 in
      let y2 := if h <=? y1 + 1 then y1 else y1 + 1 in
      let* q11 := at_ im [x1; y1] in
      let* q21 := at_ im [x2; y1] in
      let* q12 := at_ im [x1; y2] in
      let* q22 := at_ im [x2; y2] in
      let dx := (x - qn x1)%Q in
      let dy := (y - qn y1)%Q in
      let r1 := (conv q11 * (1 - dx) + conv q21 * dx)%Q in
      let r2 := (conv q12 * (1 - dx) + conv q22 * dx)%Q in
      Ok (fin (r1 * (1 - dy) + r2 * dy)%Q).

  (** 4871-4887  cubic_kernel with the default a = -0.5 *)
  Definition cubic_kernel (x : Q) : Q :=
    let a := (-1 # 2)%Q in
    let abs_x := if Qltb x 0 then (- x)%Q else x in
    let abs_x2 := (abs_x * abs_x)%Q in
    let abs_x3 := (abs_x2 * abs_x)%Q in
    if Qle_bool abs_x 1 then ((a + 2) * abs_x3 - (a + 3) * abs_x2 + 1)%Q
    else if Qltb abs_x 2 then (a * abs_x3 - 5 * a * abs_x2 + 8 * a * abs_x - 4 * a)%Q
    else 0%Q.

  (** 4891-4973  default_bicubic_interpolator (4898-4914: three channels plane by plane) *)
  Definition bicubic_interpolate (im : image A) (x y : Q) : res A :=
    let* w := get_width im in
    let* h := get_height im in
    if Qltb x 1 || Qle_bool (qn w - 2) x || Qltb y 1 || Qle_bool (qn h - 2) y then bilinear_interpolate im x y
    else
      let x_floor := to_size x in
      let y_floor := to_size y in
      let* total := for_range 4 (fun j total =>
        let v := y_floor - 1 + j in
        let* row := for_range 4 (fun i row =>
          let u := x_floor - 1 + i in
          let* p := at_ im [u; v] in
          Ok (row + conv p * cubic_kernel (x - qn u))%Q) 0%Q in
        Ok (total + row * cubic_kernel (y - qn v))%Q) 0%Q in
      Ok (fin total).
End Interp.

(** 2263-2289  cubic_interpolate: floating elements ... *)
Definition cubic_q (v0 v1 v2 v3 f : Q) : Q :=
  (let A := (v3 - v2) - (v0 - v1) in let B := (v0 - v1) - A in let C := v2 - v0 in let D := v1 in
   D + f * (C + f * (B + f * A)))%Q.
(** ... and integral elements, where the fraction is first converted to the element type (2281-2284) *)
Definition cubic_z (v0 v1 v2 v3 : Z) (frac : Q) : Z :=
  (let A := (v3 - v2) - (v0 - v1) in let B := (v0 - v1) - A in let C := v2 - v0 in let D := v1 in
   let f := trunc frac in D + f * (C + f * (B + f * A)))%Z.

(** static_cast<float> of an integer: round to 24 significant bits, ties to even *)
Definition f32_of_Z (z : Z) : Z :=
  let e := Z.max 0 (Z.log2 (Z.abs z) - 23) in
  let q := (2 ^ e)%Z in
  let k := (Z.abs z / q)%Z in
  let r := (Z.abs z mod q)%Z in
  let k' := if (2 * r <? q)%Z then k else if (q <? 2 * r)%Z then (k + 1)%Z else if Z.even k then k else (k + 1)%Z in
  (Z.sgn z * (k' * q))%Z.

(** 2291-2314  bicubicPolate *)
Definition bicubicPolate {A} (interp : A -> A -> A -> A -> Q -> A) (fin : A -> res A) (d : A) (n : list A) (fx fy : Q) : res A :=
  let c k := nth k n d in
  let x1 := interp (c 0) (c 1) (c 2) (c 3) fx in
  let x2 := interp (c 4) (c 5) (c 6) (c 7) fx in
  let x3 := interp (c 8) (c 9) (c 10) (c 11) fx in
  let x4 := interp (c 12) (c 13) (c 14) (c 15) fx in
  fin (interp x1 x2 x3 x4 fy).

(** the clamp and conversion of 2308-2312 for an integral element type [lo, hi] and float (the default InputT);
    converting a float outside the range of the element type is undefined *)
Definition polate_fin (lo hi : Z) (v : Z) : res Z :=
  let t := f32_of_Z v in
  let c := if (t <? f32_of_Z lo)%Z then f32_of_Z lo else if (f32_of_Z hi <? t)%Z then f32_of_Z hi else t in
  if (lo <=? c)%Z && (c <=? hi)%Z then Ok c else UB.

(** 2316-2351  copyResizeBicubic (2353-2365: three channels plane by plane); pixels are written in the order [sg] *)
Definition copyResizeBicubic {A} (interp : A -> A -> A -> A -> Q -> A) (fin : A -> res A) (d : A)
  (sg : nat -> nat -> list (nat * nat)) (im : image A) (width height : nat) : res (image A) :=
  let* w := get_width im in
  let* h := get_height im in
  let ratiox := (qn w / qn width)%Q in
  let ratioy := (qn h / qn height)%Q in
  let clamp (v hi : Q) := if Qltb v 0 then 0%Q else if Qltb hi v then hi else v in
  for_list (sg height width) (fun p output =>
    let '(y, x) := p in
    let xm := (qn x * ratiox)%Q in
    let ym := (qn y * ratioy)%Q in
    let xf := inject_Z (Qfloor xm) in
    let yf := inject_Z (Qfloor ym) in
    let* ndata := mapM (fun k =>
        let ndatay := (Z.of_nat (k / 4) - 1)%Z in
        let ndatax := (Z.of_nat (k mod 4) - 1)%Z in
        if (w =? 0) || (h =? 0) then UB
        else at_ im [to_size (clamp (xf + inject_Z ndatax) (qn w - 1)); to_size (clamp (yf + inject_Z ndatay) (qn h - 1))]%Q)
      (seq 0 16) in
    let* v := bicubicPolate interp fin d ndata (xm - xf) (ym - yf) in
    at_set output [x; y] v) (image_sizes d [width; height]).
