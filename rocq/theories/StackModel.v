(** StackModel.v - the commands dct3, hsv2rgb, to_complex and estimate_gaussian_params_2d (main.h, main.cpp).

    As in CommandModel a command gives the state after it; an exception leaves the state as it was.  double is modelled by the real
    numbers, as in FourierModel, ColourModel and FitModel: infinities and NaN are not modelled.  Integral types are those of at most
    53 bits, so that their conversion to double is exact. *)
From Coq Require Import Ascii String Reals.
From Verif Require Import Base ImageModel GeomModel PixelModel OField JacobiModel SiftModel HistModel ReduceModel NestedModel ElemModel GaussModel FourierModel FitModel ColourModel
  BmpModel FrameModel CliModel CommandModel ArithModel AngleModel StageModel.
Open Scope nat_scope.

(** the values that the commands meet: Image<double>, an image of an integral type, Image<RGB>, Image<HSV>,
    Image<RGB_DOUBLE>, Image<std::complex<double>>, an image of MultiChannel<std::complex<double>, 3>, a container of
    numbers, and a std::vector, std::deque or std::list of images of doubles, or of images of an integral type *)
Inductive holder := HVector | HDeque | HList.
Inductive rval :=
  | VReal (im : image R) | VInt (t : ity) (im : image Z) | VRgb (im : image (list Z)) | VHsv (im : image (list R)) | VThree (im : image (list R))
  | VComplex (im : image (R * R)) | VComplex3 (im : image (list (R * R))) | VNumbers (l : list R)
  | VStack (c : holder) (l : list (image R)) | VIntStack (c : holder) (t : ity) (l : list (image Z)).

(** main.h:2348-2404  dct3; image_operations.h:3735-3750 wants a random access range (std::vector, std::deque) of images with floating
    elements.  There is no version with an execution policy: a policy falls back to the default.  A plain picture, also one read from a
    file, is no container and is refused.  The result is a std::vector *)
Definition val_dct3 (sg : nat -> nat -> list (nat * nat)) (v : rval) : res rval :=
  match v with
  | VStack HVector l | VStack HDeque l => let* o := dct3 sg l in Ok (VStack HVector o)
  | _ => Throw InvalidArgument
  end.

(** image_operations.h:2044-2071, 2089-2103  hsv2rgb of an image, without and with a policy *)
Definition hsv2rgb_policy (pol : option (nat -> list nat)) (im : image (list R)) : res (image (list Z)) :=
  let* data := transform_seq pol [0; 0; 0]%Z hsv2rgb (pix im) in image_data data (dims im).
(** main.h:3062-3187  hsv2rgb: Image<HSV> only, also with a policy *)
Definition val_hsv2rgb (pol : option (nat -> list nat)) (v : rval) : res rval :=
  match v with
  | VHsv im => let* o := hsv2rgb_policy pol im in Ok (VRgb o)
  | _ => Throw InvalidArgument
  end.

(** main.cpp:858-991  to_complex.  Complex data is returned as it is, bool is refused, and so are containers of numbers (to_complex has no
    version for a number).  [None]: the result has a type that the handler does not know (main.h:1469-1473), such as
    Image<std::complex<int>> or an image of MultiChannel<std::complex<unsigned char>, 3>; nothing is stored.
    [s]: the order of the loops over the pixels of a plane.  An image of RGB_DOUBLE or HSV is taken apart into planes
    (image_operations.h:6356, 6375), and the results are put together by constructMultiChannel *)
Definition val_to_complex (s : nat -> list nat) (pol : option (nat -> list nat)) (v : rval) : res (option rval) :=
  match v with
  | VReal im => let* o := to_complex pol 0%R im in Ok (Some (VComplex o))
  | VInt t im => if is_bool t then Throw InvalidArgument else let* _ := to_complex pol 0%Z im in Ok None
  | VRgb im => let* _ := apply_each3 s 0%Z [] (to_complex pol 0%Z) im in Ok None
  | VHsv im | VThree im => let* o := apply_each3 s 0%R [] (to_complex pol 0%R) im in Ok (Some (VComplex3 o))
  | VComplex _ | VComplex3 _ => Ok (Some v)
  | _ => Throw InvalidArgument
  end.

(** main.h:2535-2593  estimate_gaussian_params_2d of a value: images of numbers other than bool; the elements are converted to double
    (image_operations.h:3166-3316).  The sums may be taken in any order, so this is a relation ([estimate] of FitModel); the policy
    (std::execution::seq by default) only restricts it *)
Definition val_estimate (max_iterations : nat) (tolerance : R) (v : rval) (r : res gparams) : Prop :=
  match v with
  | VReal im => estimate im max_iterations tolerance r
  | VInt t im => if is_bool t then r = Throw InvalidArgument else estimate (mkImage (dims im) (map IZR (pix im))) max_iterations tolerance r
  | _ => r = Throw InvalidArgument
  end.

Section Stack.
  Variable V F : Type.
  Variable load_file : F -> str -> option (any V).
  Variable save_file : F -> str -> any V -> option F.
  Variable as_val : any V -> option rval.
  Variable of_val : rval -> any V.
  (** how a GaussianParameters2D<double> becomes a value *)
  Variable of_params : gparams -> any V.
  Variable parse_double : str -> res R.
  Variable sch : str -> nat -> list nat.
  Variable s : nat -> list nat.
  Variable sg : nat -> nat -> list (nat * nat).
  Notation st_t := (state V F).

  Definition val_command (op : option (nat -> list nat) -> rval -> res rval) : list str -> st_t -> res st_t :=
    transform_command V F load_file save_file 0 (fun policy _ =>
      Ok (fun v => let* a := need (as_val v) in let* o := op (policy_of sch policy) a in Ok (of_val o))).
  Definition dct3_command := val_command (fun _ => val_dct3 sg).
  Definition hsv2rgb_command := val_command val_hsv2rgb.
  (** a result of an unknown type: a message, and the state stays *)
  Definition to_complex_command := val_command (fun pol v =>
    let* o := val_to_complex s pol v in match o with Some o => Ok o | None => Throw InvalidArgument end).

  (** main.h:1258-1380 and 2512-2598  estimate_gaussian_params_2d; [r]: a state after it *)
  Definition estimate_command (args : list str) (st : st_t) (r : res st_t) : Prop :=
    match snd (scalar_args args) with
    | input :: output :: rest =>
        let setup := let* n := match nth_error rest 0 with Some a => parse_size a | None => Ok 1000 end in
                     let* t := match nth_error rest 1 with Some a => parse_double a | None => Ok (/ 10 ^ 7)%R end in
                     let* v := load V F load_file st input in
                     let* a := need (as_val v) in Ok (n, t, a) in
        match setup with
        | Ok (n, t, a) =>
            exists q, val_estimate n t a q /\
              r = caught V F st (let* p := q in
                if dollar output then Ok (mkState V F (ws_store V (tl output) (of_params p) (vars V F st)) (files V F st)) else Ok st)
        | Throw _ => r = Ok st
        | UB => r = UB
        end
    | _ => r = Ok st
    end.
End Stack.
