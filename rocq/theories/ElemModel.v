(** ElemModel.v - the functions of one element: basic_functions.h 1812-1858 (apply_multichannel), 1917-3235 (pow, sqrt, cbrt, the
    circular and hyperbolic functions and their inverses, the roundings, exponentials and logarithms);
    image_operations.h 4259-4285 (pow of pictures), 6423-6582 (sin ... acos of pictures), 6328-6413 (to_complex, to_double),
    478-496 (generate_complex_image), 3924-3944 (difference of two ranges), 4203-4257 (euclidean_distance of colour pictures).

    Simplified: a finite double is a real number ([Some]); [None] is a value that is not a finite number or one the model says nothing
    about (the std functions at their poles and outside their domains), and every function gives [None] for it.  erf, erfc,
    lgamma, tgamma, ilogb, logb, the classification functions, std::complex arguments and pictures of integers are left out. *)
From Coq Require Import Reals Lra.
From Verif Require Import Base ImageModel PixelModel HistModel ReduceModel ArithModel.
Open Scope nat_scope.

Notation fl := (option R).

(** ** the functions of <cmath> at one real number *)
Definition rle (a b : R) : bool := if Rle_dec a b then true else false.
Definition rlt (a b : R) : bool := if Rlt_dec a b then true else false.
Definition req (a b : R) : bool := if Req_EM_T a b then true else false.
(** std::floor *)
Definition rfloor (x : R) : R := IZR (Int_part x).
Definition rceil (x : R) : R := (- rfloor (- x))%R.
Definition rtrunc (x : R) : R := if rle 0 x then rfloor x else rceil x.
(** std::nearbyint and std::rint: to nearest, ties to even *)
Definition rnear (x : R) : R :=
  let f := rfloor x in
  if rlt (x - f) (1 / 2) then f
  else if rlt (1 / 2) (x - f) then (f + 1)%R
  else if Z.even (Int_part x) then f else (f + 1)%R.
(** std::cbrt *)
Definition rcbrt (x : R) : R := if rlt 0 x then Rpower x (1 / 3) else if rlt x 0 then (- Rpower (- x) (1 / 3))%R else 0%R.
(** std::pow *)
Definition rpow (x e : R) : fl :=
  if rlt 0 x then Some (Rpower x e)
  else if req e (rfloor e) then
    (if req x 0 then (if rlt e 0 then None else Some (if req e 0 then 1 else 0)%R) else Some (powerRZ x (Int_part e)))
  else if req x 0 then (if rlt e 0 then None else Some 0%R) else None.
(** 1 / y *)
Definition inv (y : R) : fl := if req y 0 then None else Some (1 / y)%R.

Inductive fn :=
| Pow (e : R) | Sqrt | Cbrt | Sin | Cos | Tan | Cot | Sec | Csc | Asin | Acos | Atan | Sinh | Cosh | Tanh | Asinh | Acosh | Atanh
| Ceil | Floor | Trunc | Nearbyint | Rint | Exp | Exp2 | Expm1 | Log | Log10 | Log1p | Log2.
Definition std_tan (x : R) : fl := if req (cos x) 0 then None else Some (tan x).
(** basic_functions.h: the branch for one number of each function, in the order 1920, 1949, 1978, 2007, 2036, 2065, 2094, 2131, 2168,
    2197, 2226, 2255, 2284, 2313, 2342, 2371, 2400, 2429, 2582-2730, 3010-3235 *)
Definition scalar (f : fn) (x : R) : fl :=
  match f with
  | Pow e => rpow x e
  | Sqrt => if rle 0 x then Some (sqrt x) else None
  | Cbrt => Some (rcbrt x)
  | Sin => Some (sin x)
  | Cos => Some (cos x)
  | Tan => std_tan x
  | Cot => match std_tan x with Some t => inv t | None => None end
  | Sec => inv (cos x)
  | Csc => inv (sin x)
  | Asin => if rle (-1) x && rle x 1 then Some (asin x) else None
  | Acos => if rle (-1) x && rle x 1 then Some (acos x) else None
  | Atan => Some (atan x)
  | Sinh => Some (sinh x)
  | Cosh => Some (cosh x)
  | Tanh => Some (tanh x)
  | Asinh => Some (arcsinh x)
  | Acosh => if rle 1 x then Some (ln (x + sqrt (x ^ 2 - 1)))%R else None
  | Atanh => if rlt (-1) x && rlt x 1 then Some (1 / 2 * ln ((1 + x) / (1 - x)))%R else None
  | Ceil => Some (rceil x)
  | Floor => Some (rfloor x)
  | Trunc => Some (rtrunc x)
  | Nearbyint | Rint => Some (rnear x)
  | Exp => Some (exp x)
  | Exp2 => Some (Rpower 2 x)
  | Expm1 => Some (exp x - 1)%R
  | Log => if rlt 0 x then Some (ln x) else None
  | Log10 => if rlt 0 x then Some (ln x / ln 10)%R else None
  | Log1p => if rlt (-1) x then Some (ln (1 + x)) else None
  | Log2 => if rlt 0 x then Some (ln x / ln 2)%R else None
  end.
(** the value of the function at a double *)
Definition lift (f : R -> fl) (x : fl) : fl := match x with Some r => f r | None => None end.

(** ** pixels of several channels: basic_functions.h:1812-1858  apply_multichannel, without and with a policy.  The output is default
    initialised, [None] stands for that *)
Definition apply_multichannel (pol : option (nat -> list nat)) (f : R -> fl) (channels : list fl) : res (list fl) :=
  transform_seq pol None (fun x => Ok (lift f x)) channels.
(** the branch of each function for MultiChannel, RGB_DOUBLE and HSV: sec and csc take the quotient there (2135, 2154, 2172, 2187), the
    others call themselves (1924-2131) or the std function (2201-2380) *)
Definition channelwise (pol : option (nat -> list nat)) (f : fn) (channels : list fl) : res (list fl) :=
  match f with
  | Sec => apply_multichannel pol (fun x => inv (cos x)) channels
  | Csc => apply_multichannel pol (fun x => inv (sin x)) channels
  | _ => apply_multichannel pol (scalar f) channels
  end.

(** ** pictures *)
(** image_operations.h:6423-6582: sin, cos, tan, cot, sec, csc, asin, acos of a picture of doubles; cot, sec and csc take the quotient.
    4259-4263: pow *)
Definition image_scalar (f : fn) (x : R) : fl :=
  match f with
  | Cot => match scalar Tan x with Some t => inv t | None => None end
  | Sec => match scalar Cos x with Some t => inv t | None => None end
  | Csc => match scalar Sin x with Some t => inv t | None => None end
  | _ => scalar f x
  end.
Definition image_fn (f : fn) (im : image fl) : res (image fl) :=
  let* p := mapM (fun x => Ok (lift (image_scalar f) x)) (pix im) in image_data p (dims im).
(** of several channels: apply_each (1553-1637); RGB_DOUBLE, HSV, or MultiChannel of [n] channels *)
Definition image_fn3 (s : nat -> list nat) (f : fn) (im : image (list fl)) : res (image (list fl)) :=
  apply_each3 s None [] (image_fn f) im.
Definition image_fn_mc (s : nat -> list nat) (n : nat) (f : fn) (im : image (list fl)) : res (image (list fl)) :=
  apply_each_mc s n None [] (image_fn f) im.
(** 4265-4271  pow of a picture with a policy *)
Definition image_pow_policy (s : nat -> list nat) (e : R) (im : image fl) : res (image fl) :=
  pixelwise1_policy s None (lift (fun x => rpow x e)) im.

(** ** complex pictures; a complex number is the pair of its parts *)
(** 478-496  generate_complex_image *)
Definition generate_complex_image {A} (re im : image A) : res (image (A * A)) :=
  if negb (size_eqb (dims re) (dims im)) then Throw RuntimeError else pixelwise2 pair re im.
(** 6351-6386  to_complex of a picture, without and with a policy; [zero]: ElementT{} *)
Definition to_complex {A} (pol : option (nat -> list nat)) (zero : A) (im : image A) : res (image (A * A)) :=
  let* p := transform_seq pol (zero, zero) (fun x => Ok (x, zero)) (pix im) in image_data p (dims im).
(** 6388-6413  to_double; [conv]: static_cast<double> *)
Definition to_double {A B} (pol : option (nat -> list nat)) (d : B) (conv : A -> B) (im : image A) : res (image B) :=
  let* p := transform_seq pol d (fun x => Ok (conv x)) (pix im) in image_data p (dims im).
(** RGB: 6395, each plane, then constructRGBDOUBLE *)
Definition to_double3 {A B} (s : nat -> list nat) (pol : option (nat -> list nat)) (a : A) (d : B) (conv : A -> B) (im : image (list A)) : res (image (list B)) :=
  apply_each3 s a [] (to_double pol d conv) im.

(** ** 3924-3944  difference of two ranges: the difference of the values as ints, converted to the type of the elements *)
Definition difference_range (sc : nat -> list nat) (narrow : Z -> Z) (p q : list Z) : res (list Z) :=
  if negb (length p =? length q) then Throw RuntimeError
  else fill sc (length p) 0%Z (fun i => let* a := vget p i in let* b := vget q i in Ok (narrow (if (b <? a)%Z then a - b else b - a)%Z)).

(** ** 4203-4257  euclidean_distance of pictures of several channels; two_input_map_reduce (basic_functions.h:1477-1517) compares the
    numbers of pixels only; std::reduce with std::plus, any order.  [sub]: operator- of the pixels; the squares are channel by channel *)
Definition add_channels (p q : list R) : list R := map (fun ab => (fst ab + snd ab)%R) (combine p q).
Definition square_channels (p : list R) : list R := map (fun x => (x ^ 2)%R) p.
Definition euclidean_channels {A} (n : nat) (sub : A -> A -> list R) (x y : image A) (r : res (list R)) : Prop :=
  if negb (length (pix x) =? length (pix y)) then r = Throw RuntimeError
  else exists p s, transform2 (fun a b => square_channels (sub a b)) (pix x) (pix y) = Ok p /\ reduces add_channels (repeat 0%R n :: p) s /\ r = Ok (map sqrt s).
(** base_types.h:58-64  operator- of RGB: bytes *)
Definition sub_bytes (p q : list Z) : list R := map (fun ab => IZR ((fst ab - snd ab) mod 256)) (combine p q).
(** base_types.h:88-94, 108-116, 150-160  operator- of RGB_DOUBLE, HSV and MultiChannel *)
Definition sub_channels (p q : list R) : list R := map (fun ab => (fst ab - snd ab)%R) (combine p q).
