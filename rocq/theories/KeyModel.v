(** KeyModel.v - the commands bicubic_resize, sift_generate_octave and get_sift_potential_keypoint (main.h, main.cpp).

    As in CommandModel a command gives the state after it; an exception leaves the state as it was, UB also stands for a program
    that ends.  double and float are modelled by the real numbers (the positions of bicubic_resize by rationals, as in InterpModel);
    the rounding of the positions and of the values to float is not modelled.  An image of bool or of complex numbers is refused by
    the two SIFT commands and is not among the pictures [rpic]. *)
From Coq Require Import Ascii String Reals QArith Qreals.
From Verif Require Import Base ImageModel GeomModel InterpModel PixelModel OField JacobiModel SiftModel TurnModel GaussModel FourierModel LanczosModel
  BmpModel FrameModel CliModel CommandModel AngleModel StageModel.
Open Scope nat_scope.

(** image_operations.h:2261-2289  cubic_interpolate of doubles *)
Definition cubic_r (v0 v1 v2 v3 : R) (frac : Q) : R :=
  (let A := (v3 - v2) - (v0 - v1) in let B := (v0 - v1) - A in let C := v2 - v0 in let D := v1 in
   let f := Q2R frac in D + f * (C + f * (B + f * A)))%R.
(** 2291-2351  on doubles and on an integral type (of at most 53 bits) *)
Definition resize_double (sg : nat -> nat -> list (nat * nat)) (im : image R) (w h : nat) : res (image R) :=
  copyResizeBicubic cubic_r (fun v => Ok v) 0%R sg im w h.
Definition resize_int (sg : nat -> nat -> list (nat * nat)) (t : ity) (im : image Z) (w h : nat) : res (image Z) :=
  copyResizeBicubic cubic_z (polate_fin (lowest t) (highest t)) 0%Z sg im w h.
(** main.h:1843-1893  bicubic_resize; image_operations.h:2353-2365 for colours.  There is no version with an execution policy: a
    policy falls back to the default.  [pl]: the order of the planes' loop *)
Definition pic_bicubic (pl : nat -> list nat) (sg : nat -> nat -> list (nat * nat)) (w h : nat) (p : rpic) : res rpic :=
  match p with
  | GReal im => let* o := resize_double sg im w h in Ok (GReal o)
  | GInt t im => let* o := resize_int sg t im w h in Ok (GInt t o)
  | CReal im => let* o := apply_each3 pl 0%R [0%R; 0%R; 0%R] (fun q => resize_double sg q w h) im in Ok (CReal o)
  | CByte im => let* o := apply_each3 pl 0%Z [0; 0; 0]%Z (fun q => resize_int sg (mkIty 8 false) q w h) im in Ok (CByte o)
  end.

(** main.h:2823-2843, main.cpp:744-766  the element type is raised to double: im2double takes Image<uint8_t> (image_operations.h),
    other integral types are refused; a colour picture is refused, since the function takes no such image
    (get_potential_keypoint, 6890-6903) or both overloads take it (generate_octave, 6777-6783 and 6805-6812) *)
Definition elevate (p : rpic) : option (image R) :=
  match p with
  | GReal im => Some im
  | GInt t im => if (bits t =? 8)%Z && negb (signed t) then Some (mkImage (dims im) (map IZR (pix im))) else None
  | _ => None
  end.

Section Key.
  Variable V F : Type.
  Variable load_file : F -> str -> option (any V).
  Variable save_file : F -> str -> any V -> option F.
  Variable as_pic : any V -> option rpic.
  Variable of_pic : rpic -> any V.
  (** the containers that are stored: std::vector<Image<double>> and std::vector<Point<2>> *)
  Variable of_octave : list (image R) -> any V.
  Variable of_points : list (nat * nat) -> any V.
  (** parse_arg<double> *)
  Variable parse_double : str -> res R.
  (** the orders of the loops over the pixels of a plane and in the rows *)
  Variable s : nat -> list nat.
  Variable sg : nat -> nat -> list (nat * nat).
  (** the order in which the tasks of a search end under a parallel policy, and the thread of each pixel *)
  Variable tasks : str -> list (nat * nat) -> list (nat * nat).
  Variable owner : nat -> nat -> nat * nat -> nat.
  Notation st_t := (state V F).

  Definition bicubic_command : list str -> st_t -> res st_t :=
    pic_command V F load_file save_file as_pic of_pic 2 (fun _ rest =>
      let* w := parse_size (nth 0 rest []) in
      let* h := parse_size (nth 1 rest []) in
      Ok (pic_bicubic s sg w h)).

  (** [(size > i) ? parse(args[i]) : default] *)
  Definition optional {A} (parse : str -> res A) (d : A) (rest : list str) (i : nat) : res A :=
    match nth_error rest i with Some t => parse t | None => Ok d end.

  (** main.cpp:693-771  sift_generate_octave; its arguments are not searched for a policy *)
  Definition octave_command (args : list str) (st : st_t) : res st_t :=
    match args with
    | input :: output :: rest =>
        if negb (dollar output) then Ok st else
        caught V F st
          (let* levels := optional parse_size 5 rest 0 in
           let* sigma := optional parse_double 1.6%R rest 1 in
           let* k := optional parse_double (sqrt 2) rest 2 in
           let* v := load V F load_file st input in
           let* p := need (as_pic v) in
           let* im := need (elevate p) in
           let* o := generate_octave (difference_of_gaussian sg s) im levels sigma k in
           Ok (save V F save_file st output (of_octave o)))
    | _ => Ok st
    end.

  (** main.h:2768-2783  the resampling function that is named *)
  Definition resampler (name : str) (im : image R) (w h : nat) : res (image R) :=
    if eqs name (lit "lanczos") then lanczos_resample s im w h 3
    else if eqs name (lit "bicubic") then resize_double sg im w h
    else Throw InvalidArgument.
  Definition task_order (policy : str) : list (nat * nat) -> list (nat * nat) :=
    if eqs policy [] || eqs policy (lit "seq") then (fun l => l) else tasks policy.
  (** main.h:2700-2849  get_sift_potential_keypoint *)
  Definition keypoint_command (args : list str) (st : st_t) : res st_t :=
    let '(policy, filtered) := scalar_args args in
    match filtered with
    | input :: output :: rest =>
        if negb (dollar output) then Ok st else
        caught V F st
          (let* octaves := optional parse_size 4 rest 0 in
           let* levels := optional parse_size 5 rest 1 in
           let* sigma := optional parse_double 1.6%R rest 2 in
           let* k := optional parse_double (sqrt 2) rest 3 in
           let* contrast := optional parse_double 8%R rest 4 in
           let* edge := optional parse_double 12.1%R rest 5 in
           let name := match nth_error rest 6 with Some t => t | None => lit "bicubic" end in
           let* v := load V F load_file st input in
           let* p := need (as_pic v) in
           let* im := need (elevate p) in
           let* points := get_potential_keypoint (difference_of_gaussian sg s) (resampler name) (task_order policy) owner im
             octaves levels sigma k contrast edge in
           Ok (save V F save_file st output (of_points points)))
    | _ => Ok st
    end.
End Key.
