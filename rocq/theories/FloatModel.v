(** FloatModel.v - doubles as bit patterns: the functions that ask for the kind of a number (basic_functions.h:2744-3008), the
    comparison of pictures (image.h:549) and of HSV colours (base_types.h:132-140) with infinities, NaN and both zeros, and the
    pictures of zeros, ones and NaN (image_operations.h:292-326).

    A double is its bit pattern, a number from 0 to 2^64 - 1: one bit for the sign, 11 for the exponent, 52 for the fraction (IEEE 754,
    binary64).  The functions of the C library are modelled on the bits, with the constants of x86-64 Linux. *)
From Coq Require Import ZArith Reals Bool List.
From Verif Require Import Base ImageModel PixelModel ArithModel.
Import ListNotations.
Open Scope Z_scope.

Definition bits := Z.
Definition sign (b : bits) : bool := 2 ^ 63 <=? b.
Definition magnitude (b : bits) : Z := b mod 2 ^ 63.
Definition expo (b : bits) : Z := (b / 2 ^ 52) mod 2 ^ 11.
Definition frac (b : bits) : Z := b mod 2 ^ 52.

(** the functions of <cmath> that basic_functions.h calls.  std::isnan and the others on an integral argument convert it to double *)
Inductive query := Ilogb | Logb | Fpclassify | Isfinite | Isinf | Isnan | Isnormal | Signbit.
(** int, double (as bits) or bool *)
Inductive answer := AInt (z : Z) | ADbl (b : bits) | ABool (b : bool).

(** a whole number that fits in 53 bits, as a double: the leading one of the binary numeral is not stored *)
Definition bits_of_int (z : Z) : bits :=
  if z =? 0 then 0
  else (if z <? 0 then 2 ^ 63 else 0) + (1023 + Z.log2 (Z.abs z)) * 2 ^ 52 + (Z.abs z * 2 ^ (52 - Z.log2 (Z.abs z)) - 2 ^ 52).
Definition infinity (negative : bool) : bits := (if negative then 2 ^ 63 else 0) + 2047 * 2 ^ 52.
(** std::numeric_limits<double>::quiet_NaN() *)
Definition quiet_nan : bits := 2047 * 2 ^ 52 + 2 ^ 51.

(** FP_NAN 0, FP_INFINITE 1, FP_ZERO 2, FP_SUBNORMAL 3, FP_NORMAL 4 *)
Definition std_fpclassify (b : bits) : Z :=
  if expo b =? 2047 then (if frac b =? 0 then 1 else 0)
  else if expo b =? 0 then (if frac b =? 0 then 2 else 3)
  else 4.
Definition std_isfinite (b : bits) : bool := negb (expo b =? 2047).
Definition std_isinf (b : bits) : bool := (expo b =? 2047) && (frac b =? 0).
Definition std_isnan (b : bits) : bool := (expo b =? 2047) && negb (frac b =? 0).
Definition std_isnormal (b : bits) : bool := negb (expo b =? 2047) && negb (expo b =? 0).
Definition std_signbit (b : bits) : bool := sign b.
(** the exponent of a number that is neither zero, infinite nor NaN *)
Definition exponent (b : bits) : Z := if expo b =? 0 then Z.log2 (frac b) - 1074 else expo b - 1023.
(** FP_ILOGB0 and FP_ILOGBNAN are INT_MIN, ilogb of an infinity is INT_MAX *)
Definition std_ilogb (b : bits) : Z :=
  if expo b =? 2047 then (if frac b =? 0 then 2 ^ 31 - 1 else - 2 ^ 31)
  else if (expo b =? 0) && (frac b =? 0) then - 2 ^ 31
  else exponent b.
Definition std_logb (b : bits) : bits :=
  if expo b =? 2047 then (if frac b =? 0 then infinity false else b)
  else if (expo b =? 0) && (frac b =? 0) then infinity true
  else bits_of_int (exponent b).
Definition std (q : query) (b : bits) : answer :=
  match q with
  | Ilogb => AInt (std_ilogb b)
  | Logb => ADbl (std_logb b)
  | Fpclassify => AInt (std_fpclassify b)
  | Isfinite => ABool (std_isfinite b)
  | Isinf => ABool (std_isinf b)
  | Isnan => ABool (std_isnan b)
  | Isnormal => ABool (std_isnormal b)
  | Signbit => ABool (std_signbit b)
  end.
(** basic_functions.h:2744-3008  at one number, without and with a policy *)
Definition ask (q : query) (b : bits) : answer := std q b.
(** of MultiChannel, RGB_DOUBLE, HSV: apply_multichannel (1812-1858).  The output is default initialised, [AInt 0] stands for that *)
Definition ask_channels (pol : option (nat -> list nat)) (q : query) (channels : list bits) : res (list answer) :=
  transform_seq pol (AInt 0) (fun b => Ok (ask q b)) channels.
(** of RGB and of MultiChannel of integers *)
Definition ask_ints (pol : option (nat -> list nat)) (q : query) (channels : list Z) : res (list answer) :=
  transform_seq pol (AInt 0) (fun z => Ok (ask q (bits_of_int z))) channels.

(** ** comparisons *)
(** == and < of two doubles.  The order of the bits of the magnitudes is the order of the magnitudes *)
Definition key (b : bits) : Z := if sign b then - magnitude b else magnitude b.
Definition deq (a b : bits) : bool := if std_isnan a || std_isnan b then false else key a =? key b.
Definition dlt (a b : bits) : bool := if std_isnan a || std_isnan b then false else key a <? key b.
(** std::vector: the lengths first, then the elements *)
Fixpoint elements_eqb {A} (eq : A -> A -> bool) (l r : list A) : bool :=
  match l, r with
  | [], [] => true
  | a :: l', b :: r' => if eq a b then elements_eqb eq l' r' else false
  | _, _ => false
  end.
Definition vector_eqb {A} (eq : A -> A -> bool) (l r : list A) : bool := if (length l =? length r)%nat then elements_eqb eq l r else false.
(** image.h:549, 551  the defaulted == and != compare the members in order *)
Definition image_eqb {A} (eq : A -> A -> bool) (x y : image A) : bool :=
  vector_eqb Nat.eqb (dims x) (dims y) && vector_eqb eq (pix x) (pix y).
Definition image_neqb {A} (eq : A -> A -> bool) (x y : image A) : bool := negb (image_eqb eq x y).
(** base_types.h:140  == of HSV colours; 132-138  <: std::tie of three doubles.  The comparison of two channels gives less, greater,
    equivalent or unordered; the first that is not equivalent decides, and unordered is not less *)
Definition dhsv_eqb (a b : bits * bits * bits) : bool :=
  let '(a0, a1, a2) := a in let '(b0, b1, b2) := b in deq a0 b0 && deq a1 b1 && deq a2 b2.
Definition dhsv_less (a b : bits * bits * bits) : bool :=
  let '(a0, a1, a2) := a in let '(b0, b1, b2) := b in
  if negb (deq a0 b0) then dlt a0 b0 else if negb (deq a1 b1) then dlt a1 b1 else dlt a2 b2.

(** ** image_operations.h:292-326  zeros, also from a range of extents, ones and nan, of doubles *)
Definition zeros (sizes : list nat) : image bits := image_sizes 0 sizes.
Definition zeros_range (sizes : list nat) : res (image bits) := image_sizes_range 0 sizes.
Definition ones (sizes : list nat) : image bits := set_all_value (zeros sizes) (bits_of_int 1).
Definition nans (sizes : list nat) : image bits := set_all_value (zeros sizes) quiet_nan.
