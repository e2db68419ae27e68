(** ArithModel.v - the commands add, subtract, abs, max, min, manhattan_distance, getRplane, getGplane, getBplane, im2double and
    im2uint8 of the program (main.h:1480-1761, 2854-2925, 3233-3497, 3541-3829, 4472-4636; base_types.h:50-64, 80-95;
    image.h:517-531, 553-561; basic_functions.h:1872-1916; image_operations.h:3847-3869).

    Simplified: a value is one of the kinds of [pic]; the kinds of containers (std::vector, std::deque, std::list, std::array) are one
    kind; two integral types of the same width and sign are one type (long and long long, char and signed char); HSV,
    MultiChannel and std::complex are left out.  Doubles are rational numbers and their sums are exact. *)
From Coq Require Import QArith Qround Qabs.
From Verif Require Import Base ImageModel PixelModel ReduceModel CliModel CommandModel.
Open Scope nat_scope.

Inductive pic :=
| PInt (t : ity) (im : image Z)          (* Image of integers *)
| PDbl (im : image Q)                    (* Image<double> *)
| PRgb (im : image (list Z))             (* Image<RGB> *)
| PRgbD (im : image (list Q))            (* Image<RGB_DOUBLE> *)
| PSeq (t : ity) (l : list Z)            (* a container of integers *)
| PReals (l : list Q)                    (* a container of doubles *)
| PNum (t : ity) (z : Z)                 (* an integer *)
| PReal (q : Q).                         (* a double *)

(** ** add and subtract *)
(** std::minus<> of two elements and the conversion to the type of the elements; std::plus<> is [plus_elem] *)
Definition sum_elem (t : ity) (x y : Z) : res Z := plus_elem t (Ok x) (Ok y).
Definition minus_elem (t : ity) (x y : Z) : res Z :=
  let z := (x - y)%Z in
  if signed t && (32 <=? bits t)%Z then (if (lowest t <=? z)%Z && (z <=? highest t)%Z then Ok z else UB) else Ok (conv t z).
(** base_types.h:80-95  RGB_DOUBLE::operator+ and operator- *)
Definition rgbd_op (f : Q -> Q -> Q) (a b : list Q) : res (list Q) :=
  let* a0 := vget a 0 in let* b0 := vget b 0 in
  let* a1 := vget a 1 in let* b1 := vget b 1 in
  let* a2 := vget a 2 in let* b2 := vget b 2 in
  Ok [f a0 b0; f a1 b1; f a2 b2].
(** image.h:517-531 and 553-561  operator+ and operator- of two images *)
Definition image_op {A} (f : A -> A -> res A) (a b : image A) : res (image A) :=
  if size_eqb (dims b) (dims a) then let* p := transform2M f (pix a) (pix b) in Ok (mkImage (dims a) p) else Throw RuntimeError.
(** main.h:1640-1688 and the like of subtract: operator+ exists for two images of one type; bool is refused.  TinyDIP::add and
    TinyDIP::subtract take no execution policy, so that a policy changes nothing *)
Definition pic_op (fz : ity -> Z -> Z -> res Z) (frgb : list Z -> list Z -> res (list Z)) (fq : Q -> Q -> Q) (a b : pic) : res pic :=
  match a, b with
  | PInt t x, PInt u y =>
      if is_bool t || is_bool u then Throw InvalidArgument
      else if same_ity t u then let* o := image_op (fz t) x y in Ok (PInt t o) else Throw InvalidArgument
  | PDbl x, PDbl y => let* o := image_op (fun p q => Ok (fq p q)) x y in Ok (PDbl o)
  | PRgb x, PRgb y => let* o := image_op frgb x y in Ok (PRgb o)
  | PRgbD x, PRgbD y => let* o := image_op (rgbd_op fq) x y in Ok (PRgbD o)
  | _, _ => Throw InvalidArgument
  end.
Definition pic_add : pic -> pic -> res pic := pic_op sum_elem rgb_add Qplus.
Definition pic_sub : pic -> pic -> res pic := pic_op minus_elem rgb_sub Qminus.

(** ** abs *)
(** basic_functions.h:1872-1885  generic_abs: std::abs of a type smaller than int is that of int *)
Definition abs_type (t : ity) : ity := if signed t then promote t else t.
Definition abs_elem (t : ity) (z : Z) : res Z :=
  if signed t then (if (z =? lowest (promote t))%Z then UB else Ok (Z.abs z)) else Ok z.
(** basic_functions.h:1165-1195 recursive_transform, without and with a policy *)
Definition transform_seq {A B} (pol : option (nat -> list nat)) (d : B) (f : A -> res B) (l : list A) : res (list B) :=
  match pol with
  | None => mapM f l
  | Some sc => fill sc (length l) d (fun i => let* e := vget l i in f e)
  end.
(** image_operations.h:3847-3869; main.h:1510-1586  abs *)
Definition pic_abs (pol : option (nat -> list nat)) (v : pic) : res pic :=
  match v with
  | PInt t im => let* p := transform_seq pol 0%Z (abs_elem t) (pix im) in let* o := image_data p (dims im) in Ok (PInt (abs_type t) o)
  | PDbl im => let* p := transform_seq pol 0%Q (fun q => Ok (Qabs q)) (pix im) in let* o := image_data p (dims im) in Ok (PDbl o)
  | PSeq t l => let* p := transform_seq pol 0%Z (abs_elem t) l in Ok (PSeq (abs_type t) p)
  | PReals l => let* p := transform_seq pol 0%Q (fun q => Ok (Qabs q)) l in Ok (PReals p)
  (* each plane, then constructRGB: image_operations.h:3871-3884 and 1553-1617; [seq0]: the loops of getPlane and of constructRGB *)
  | PRgb im => let* o := apply_each3 seq0 0%Z [0; 0; 0]%Z (fun p => let* q := transform_seq pol 0%Z (abs_elem (mkIty 8 false)) (pix p) in image_data q (dims p)) im in Ok (PRgb o)
  | PRgbD im => let* o := apply_each3 seq0 0%Q [0; 0; 0]%Q (fun p => let* q := transform_seq pol 0%Q (fun q => Ok (Qabs q)) (pix p) in image_data q (dims p)) im in Ok (PRgbD o)
  | PNum _ _ | PReal _ => Throw InvalidArgument               (* numbers are not among master_data_types *)
  end.

(** ** max and min (image_operations.h:4324-4352; std::ranges::max and min of a container) *)
Definition qltb (a b : Q) : bool := negb (Qle_bool b a).
Definition pic_extreme (ez : list Z -> res Z) (eq : list Q -> res Q) (v : pic) : res pic :=
  match v with
  | PInt t im => let* z := ez (pix im) in Ok (PNum t z)
  | PSeq t l => let* z := ez l in Ok (PNum t z)
  | PDbl im => let* q := eq (pix im) in Ok (PReal q)
  | PReals l => let* q := eq l in Ok (PReal q)
  | PRgb im => let* l := mapM (fun k => let* p := get_plane seq0 0%Z im k in ez (pix p)) (seq 0 3) in Ok (PSeq (mkIty 8 false) l)
  | PRgbD im => let* l := mapM (fun k => let* p := get_plane seq0 0%Q im k in eq (pix p)) (seq 0 3) in Ok (PReals l)
  | PNum _ _ | PReal _ => Throw InvalidArgument
  end.
Definition pic_max : pic -> res pic := pic_extreme (vmax Z.ltb) (vmax qltb).
Definition pic_min : pic -> res pic := pic_extreme (vmin Z.ltb) (vmin qltb).

(** ** manhattan_distance (image_operations.h:3947-3969) *)
(** 3887-3898 difference and the sum, of doubles *)
Definition manhattan_q (x y : image Q) : res Q :=
  if negb (size_eqb (dims x) (dims y)) then Throw RuntimeError
  else let* d := pixelwise2 (fun a b => if qltb b a then Qminus a b else Qminus b a) x y in Ok (recursive_reduce1 Qplus (pix d) 0%Q).
Definition pic_manhattan (a b : pic) : res pic :=
  match a, b with
  | PInt t x, PInt u y =>
      if same_ity t u then let* d := manhattan_distance (highest (promote t)) x y in Ok (PReal (inject_Z d)) else Throw InvalidArgument
  | PDbl x, PDbl y => let* d := manhattan_q x y in Ok (PReal d)
  | PRgb x, PRgb y =>
      if negb (size_eqb (dims x) (dims y)) then Throw RuntimeError
      else let* l := mapM (fun k => let* p := get_plane seq0 0%Z x k in let* q := get_plane seq0 0%Z y k in manhattan_distance (2 ^ 31 - 1) p q) (seq 0 3) in
           Ok (PReals (map inject_Z l))
  | PRgbD x, PRgbD y =>
      if negb (size_eqb (dims x) (dims y)) then Throw RuntimeError
      else let* l := mapM (fun k => let* p := get_plane seq0 0%Q x k in let* q := get_plane seq0 0%Q y k in manhattan_q p q) (seq 0 3) in Ok (PReals l)
  | _, _ => Throw InvalidArgument
  end.

(** ** getPlane, im2double and im2uint8 (image_operations.h:1191-1221 and 1711-1733); [s]: the order of the loops *)
Definition pic_plane (s : nat -> list nat) (k : nat) (v : pic) : res pic :=
  match v with
  | PRgb im => let* p := get_plane s 0%Z im k in Ok (PInt (mkIty 8 false) p)
  | PRgbD im => let* p := get_plane s 0%Q im k in Ok (PDbl p)
  | _ => Throw InvalidArgument
  end.
Definition pic_double (s : nat -> list nat) (v : pic) : res pic :=
  match v with
  | PRgb im => let* o := im2double s im in Ok (PRgbD o)
  | PInt t im => if same_ity t (mkIty 8 false) then let* o := im2double_gray im in Ok (PDbl o) else Throw InvalidArgument
  | _ => Throw InvalidArgument
  end.
Definition pic_uint8 (s : nat -> list nat) (v : pic) : res pic :=
  match v with
  | PRgbD im => let* o := im2uint8 s im in Ok (PRgb o)
  | PDbl im => let* o := im2uint8_gray im in Ok (PInt (mkIty 8 false) o)
  | _ => Throw InvalidArgument
  end.

(** ** the commands *)
Section Commands.
  Variable V F : Type.
  Variable load_file : F -> str -> option (any V).
  Variable save_file : F -> str -> any V -> option F.
  Variable sch : str -> nat -> list nat.
  Variable as_pic : any V -> option pic.
  Variable of_pic : pic -> any V.
  Notation st_t := (state V F).
  Notation load := (load V F load_file).
  Notation save := (save V F save_file).

  (** main.h:1611-1756 (add), 4472-4636 (subtract) *)
  Definition two_command (op : pic -> pic -> res pic) (args : list str) (st : st_t) : res st_t :=
    match args_filter args with
    | input1 :: input2 :: output :: _ =>
        caught V F st
          (let* v := load st input1 in let* a := need (as_pic v) in
           let* v := load st input2 in let* b := need (as_pic v) in
           let* o := op a b in
           Ok (save st output (of_pic o)))
    | _ => Ok st
    end.
  Definition add_command := two_command pic_add.
  Definition subtract_command := two_command pic_sub.

  (** main.h:1391-1476  the commands with one input: MetaTransformHandler *)
  Definition one_command (op : str -> pic -> res pic) : list str -> st_t -> res st_t :=
    transform_command V F load_file save_file 0 (fun policy _ => Ok (fun v => let* a := need (as_pic v) in let* o := op policy a in Ok (of_pic o))).
  (** main.h:1492-1591 *)
  Definition abs_command := one_command (fun policy => pic_abs (policy_of sch policy)).
  (** main.h:2872-2925; there is no getPlane with a policy; [s]: the order of the loop *)
  Definition plane_command (s : nat -> list nat) (k : nat) := one_command (fun _ => pic_plane s k).
  (** main.h:3233-3497  the policy is not supported either *)
  Definition double_command (s : nat -> list nat) := one_command (fun _ => pic_double s).
  Definition uint8_command (s : nat -> list nat) := one_command (fun _ => pic_uint8 s).

  (** a number goes to a variable, or to the screen: main.h:1304-1370 and 3618-3672 *)
  Definition keep (rest : list str) (v : pic) (st : st_t) : res st_t :=
    match rest with
    | output :: _ => if dollar output then Ok (mkState V F (ws_store V (tl output) (of_pic v) (vars V F st)) (files V F st)) else Ok st
    | [] => Ok st
    end.
  (** main.h:3704-3829  max and min: MetaScalarHandler *)
  Definition extreme_command (op : pic -> res pic) (args : list str) (st : st_t) : res st_t :=
    match snd (scalar_args args) with
    | input :: rest => caught V F st (let* v := load st input in let* a := need (as_pic v) in let* o := op a in keep rest o st)
    | [] => Ok st
    end.
  Definition max_command := extreme_command pic_max.
  Definition min_command := extreme_command pic_min.
  (** main.h:3541-3702 *)
  Definition manhattan_command (args : list str) (st : st_t) : res st_t :=
    match args_filter args with
    | input1 :: input2 :: rest =>
        caught V F st
          (let* v := load st input1 in let* a := need (as_pic v) in
           let* v := load st input2 in let* b := need (as_pic v) in
           let* o := pic_manhattan a b in
           keep rest o st)
    | _ => Ok st
    end.
End Commands.
