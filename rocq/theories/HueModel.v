(** HueModel.v - image_operations.h:855-948: rgb2hsv and hsv2rgb of a pixel with rounded arithmetic.

    ColourModel.v has the same two functions in exact arithmetic.  Here every operation on doubles rounds to the nearest double
    (RoundModel.v) and every operation on long doubles to a nearest number with 64 binary digits (x86-64: the 80-bit format); of two
    equally near long doubles either may result.  A finite double is the real number it means. *)
From Coq Require Import ZArith Reals Bool List.
From Verif Require Import Base ImageModel ColourModel FloatModel FloatProofs RoundModel.
Import ListNotations.
Open Scope Z_scope.

Definition double (r : R) : Prop := exists b, means b (Fin r).
Definition dround (x r : R) : Prop := exists b, rounds x b /\ means b (Fin r).
(** long double *)
Definition extended (r : R) : Prop := exists m e, Z.abs m < 2 ^ 64 /\ -16445 <= e <= 16320 /\ r = (IZR m * powerRZ 2 e)%R.
Definition xround (x r : R) : Prop := extended r /\ forall r', extended r' -> (Rabs (x - r) <= Rabs (x - r'))%R.
(** std::acos: for an argument from -1 to 1 a double that is not negative and within 2^-50 of the arc cosine; of 1 it is 0 (C standard,
    F.10.1.1); for other arguments it is not a number, and here there is no result *)
Definition lib_acos (c a : R) : Prop :=
  (-1 <= c <= 1)%R /\ double a /\ (0 <= a)%R /\ (c = 1%R -> a = 0%R) /\ (Rabs (a - acos c) <= powerRZ 2 (-50))%R.

(** 855-889  rgb2hsv.  The differences of channels, their products, the square (std::pow with 2.0) and the halved sum are exact;
    H1 is computed where it is used *)
Definition hue_angle (red green blue : Z) (h : R) : Prop :=
  exists d c a pi degrees,
    dround (sqrt (IZR ((red - green) * (red - green) + (red - blue) * (green - blue)))) d
    /\ dround (/ 2 * IZR ((red - green) + (red - blue)) / d) c /\ lib_acos c a
    /\ dround PI pi /\ dround (180 / pi) degrees /\ dround (a * degrees) h.
Definition rgb2hsv_rounded (red green blue : Z) (out : R * R * R) : Prop :=
  let vmax := Z.max red (Z.max green blue) in
  let vmin := Z.min red (Z.min green blue) in
  let '(h, s, v) := out in
  (if vmax =? vmin then h = 0%R
   else exists h1, hue_angle red green blue h1 /\ if blue <=? green then h = h1 else dround (360 - h1) h)
  /\ (if vmax =? 0 then s = 0%R else exists q, dround (IZR vmin / IZR vmax) q /\ dround (1 - q) s)
  /\ v = IZR vmax.

(** 901-948  hsv2rgb; the conversions to long double are exact; an output pixel that is not assigned stays black *)
Definition hsv2rgb_rounded (hsv : R * R * R) (out : res (list Z)) : Prop :=
  let '(h, s, v) := hsv in
  exists z, xround (h / 60) z /\
  match to_u8 (IZR (Int_part z)) with
  | Ok hi =>
    exists f m0 vmin q0 q1 q t0 t1 t2 t,
      xround (z - IZR hi) f
      /\ xround (1 - s) m0 /\ xround (v * m0) vmin
      /\ xround (f * s) q0 /\ xround (1 - q0) q1 /\ xround (v * q1) q
      /\ xround (1 - f) t0 /\ xround (t0 * s) t1 /\ xround (1 - t1) t2 /\ xround (v * t2) t
      /\ let put a b c := let* a := to_u8 a in let* b := to_u8 b in let* c := to_u8 c in Ok [a; b; c] in
         out = if hi =? 0 then put v t vmin
               else if hi =? 1 then put q v vmin
               else if hi =? 2 then put vmin v t
               else if hi =? 3 then put vmin q v
               else if hi =? 4 then put t vmin v
               else if hi =? 5 then put v vmin q
               else Ok [0; 0; 0]
  | _ => out = UB
  end.
