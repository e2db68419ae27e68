(** StageModel.v - the commands dct2, idct2, rotate, lanczos_resample, normalize and gaussian_figure_2d (main.h, main.cpp).

    As in CommandModel a command gives the state after it; an exception leaves the state as it was.  double is modelled by the real
    numbers, as in FourierModel, TurnModel, LanczosModel and GaussModel: infinities and NaN are not modelled. *)
From Coq Require Import Ascii String Reals.
From Verif Require Import Base ImageModel GeomModel PixelModel OField JacobiModel SiftModel TurnModel GaussModel FourierModel LanczosModel
  BmpModel FrameModel CliModel CommandModel AngleModel.
Open Scope nat_scope.

(** the pictures that the commands work on: Image<double>, an image of an integral type, Image<RGB_DOUBLE> and Image<RGB> *)
Inductive rpic := GReal (im : image R) | GInt (t : ity) (im : image Z) | CReal (im : image (list R)) | CByte (im : image (list Z)).

(** main.h:2299-2345, 3190-3232  dct2 and idct2 (image_operations.h:3813-3845, 3847-3880).  There is no version with an execution
    policy: a policy falls back to the default.  [s]: the order of the loop over the pixels of a plane, [sg]: that of the pixels *)
Definition pic_dct (s : nat -> list nat) (sg : nat -> nat -> list (nat * nat)) (p : rpic) : res rpic :=
  match p with
  | GReal im => let* o := dct2 (fun v => v) sg im in Ok (GReal o)
  | GInt _ im => let* o := dct2 IZR sg im in Ok (GReal o)
  | CReal im => let* o := dct2_rgb (fun v => v) 0%R s sg im in Ok (CReal o)
  | CByte im => let* o := dct2_rgb IZR 0%Z s sg im in Ok (CReal o)
  end.
Definition pic_idct (s : nat -> list nat) (sg : nat -> nat -> list (nat * nat)) (p : rpic) : res rpic :=
  match p with
  | GReal im => let* o := idct2 (fun v => v) sg im in Ok (GReal o)
  | GInt _ im => let* o := idct2 IZR sg im in Ok (GReal o)
  | CReal im => let* o := idct2_rgb (fun v => v) 0%R s sg im in Ok (CReal o)
  | CByte im => let* o := idct2_rgb IZR 0%Z s sg im in Ok (CReal o)
  end.

(** main.cpp:634-690  rotate: rotate_detail_shear_transformation with its default interpolator (image_operations.h:4975-5085); no
    version with a policy.  Integral types are those of at most 53 bits; bool is not modelled *)
Definition turn_int (t : ity) (im : image Z) (radians : R) : res (image Z) :=
  rotate_shear 0%Z (PI / 2) (bicubic_r IZR (fin_int_r (lowest t) (highest t)) 0%Z) im radians.
Definition pic_turn (s : nat -> list nat) (radians : R) (p : rpic) : res rpic :=
  match p with
  | GReal im => let* o := turn im radians in Ok (GReal o)
  | GInt t im => let* o := turn_int t im radians in Ok (GInt t o)
  | CReal im => let* _ := check2d im in let* o := apply_each3 s 0%R [0%R; 0%R; 0%R] (fun q => turn q radians) im in Ok (CReal o)
  | CByte im => let* _ := check2d im in
                let* o := apply_each3 s 0%Z [0; 0; 0]%Z (fun q => turn_int (mkIty 8 false) q radians) im in Ok (CByte o)
  end.

(** image_operations.h:2395-2490 and 2492-2592  lanczos_resample with a radius that is an int: with a negative radius the loops
    over the neighbours do nothing, and every pixel stays zero *)
Definition lanczos_int (s : nat -> list nat) (im : image R) (new_width new_height : nat) (a : Z) : res (image R) :=
  if (0 <=? a)%Z then lanczos_resample s im new_width new_height (Z.to_nat a)
  else
    let* _ := check2d im in
    let* old_width := get_width im in
    let* old_height := get_height im in
    for_list (s (new_width * new_height)) (fun idx output =>
      let y_new := idx / new_width in
      let x_new := idx mod new_width in
      let* fx := int_ok (Int_part ((INR x_new + / 2) * (INR old_width / INR new_width) - / 2)) in
      let* fy := int_ok (Int_part ((INR y_new + / 2) * (INR old_height / INR new_height) - / 2)) in
      let* _ := int_ok (fx - a) in let* _ := int_ok (fx - a + 1) in let* _ := int_ok (fx + a) in
      let* _ := int_ok (fy - a) in let* _ := int_ok (fy - a + 1) in let* _ := int_ok (fy + a) in
      Ok output) (image_sizes 0%R [new_width; new_height]).
(** 2461-2482  the conversion of a value to the element type: clamped and cut, for bool compared with 1/2 *)
Definition lanczos_fin (t : ity) (v : R) : res Z :=
  if is_bool t then Ok (if rleb (/ 2) v then 1 else 0)%Z
  else
    let hi := max_double t in
    let z := if rltb v (IZR (lowest t)) then lowest t else if rltb (IZR hi) v then hi else rtrunc v in
    if (lowest t <=? z)%Z && (z <=? highest t)%Z then Ok z else UB.
(** the pixels of an integral type are converted to double one by one, and the results back *)
Definition lanczos_ints (s : nat -> list nat) (t : ity) (im : image Z) (new_width new_height : nat) (a : Z) : res (image Z) :=
  let* r := lanczos_int s (mkImage (dims im) (map IZR (pix im))) new_width new_height a in
  let* l := mapM (lanczos_fin t) (pix r) in
  Ok (mkImage (dims r) l).
(** main.cpp:259-315  the radius is a std::size_t and becomes an int.  [pl]: the order of the planes' loops *)
Definition pic_lanczos (pl s : nat -> list nat) (w h a : nat) (p : rpic) : res rpic :=
  let r := s32 (Z.of_nat a) in
  match p with
  | GReal im => let* o := lanczos_int s im w h r in Ok (GReal o)
  | GInt t im => let* o := lanczos_ints s t im w h r in Ok (GInt t o)
  | CReal im => let* o := apply_each3 pl 0%R [0%R; 0%R; 0%R] (fun q => lanczos_int s q w h r) im in Ok (CReal o)
  | CByte im => let* o := apply_each3 pl 0%Z [0; 0; 0]%Z (fun q => lanczos_ints s (mkIty 8 false) q w h r) im in Ok (CByte o)
  end.



Section Stage.
  Variable V F : Type.
  Variable load_file : F -> str -> option (any V).
  Variable save_file : F -> str -> any V -> option F.
  Variable as_pic : any V -> option rpic.
  Variable of_pic : rpic -> any V.
  (** parse_arg<double> *)
  Variable parse_double : str -> res R.
  (** the orders of the loops: under a policy, in the loops over the pixels of a plane, and in the rows *)
  Variable sch : str -> nat -> list nat.
  Variable s : nat -> list nat.
  Variable sg : nat -> nat -> list (nat * nat).
  Notation st_t := (state V F).

  Definition pic_command (extra : nat) (op : str -> list str -> res (rpic -> res rpic)) : list str -> st_t -> res st_t :=
    transform_command V F load_file save_file extra (fun policy rest =>
      let* f := op policy rest in Ok (fun v => let* a := need (as_pic v) in let* o := f a in Ok (of_pic o))).
  Definition dct2_command := pic_command 0 (fun _ _ => Ok (pic_dct s sg)).
  Definition idct2_command := pic_command 0 (fun _ _ => Ok (pic_idct s sg)).
  Definition rotate_command := pic_command 1 (fun _ rest => let* a := parse_double (nth 0 rest []) in Ok (pic_turn s a)).
  Definition lanczos_command := pic_command 2 (fun policy rest =>
    let* w := parse_size (nth 0 rest []) in
    let* h := parse_size (nth 1 rest []) in
    let* a := match nth_error rest 2 with Some t => parse_size t | None => Ok 3 end in
    Ok (pic_lanczos s (order (policy_of sch policy)) w h a)).

  (** main.h:3993-4110  normalize; image_operations.h:2211-2228 wants a floating point element, or an ordered one with a floating
      value_type: integral types, RGB and RGB_DOUBLE are refused.  There is no version with a policy.  Containers are not modelled *)
  Definition less (a b : R) : bool := if Rlt_dec a b then true else false.
  Definition pic_normalize (p : rpic) : res rpic :=
    match p with
    | GReal im => let* o := normalize less Rminus Rdiv im in Ok (GReal o)
    | _ => Throw InvalidArgument
    end.
  Definition normalize_command := pic_command 0 (fun _ _ => Ok pic_normalize).

  (** main.h:2596-2630  gaussian_figure_2d; the first argument is never taken for a policy *)
  Definition figure_command (args : list str) (st : st_t) : res st_t :=
    match args with
    | output :: wa :: ha :: xa :: ya :: sa :: _ =>
        caught V F st
          (let* w := parse_size wa in let* h := parse_size ha in
           let* cx := parse_size xa in let* cy := parse_size ya in
           let* sigma := parse_double sa in
           let* im := gaussian_figure2d w h cx cy sigma sigma false in
           Ok (save V F save_file st output (of_pic (GReal im))))
    | _ => Ok st
    end.
End Stage.
