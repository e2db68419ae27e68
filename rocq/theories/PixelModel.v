(** PixelModel.v - pixel types (base_types.h), colour planes and pixelwise operations
    (image_operations.h:952-1243, 1513-1733, 2044-2070, 3314-3600, 3887-3923).

    A pixel with channels is the list of its channels; RGB has three uint8 channels (integers in [0, 256)),
    HSV and RGB_DOUBLE three doubles, MultiChannel<T, n> n channels of T, Point<n> n size_t coordinates. *)
From Coq Require Import QArith Qround.
From Verif Require Import Base ImageModel.
Open Scope nat_scope.

(** static_cast<std::uint8_t>(int) *)
Definition u8 (z : Z) : Z := (z mod 256)%Z.

(** channels[i] of a fixed array *)
Notation ch := vget (only parsing).

(** ** base_types.h *)
(** base_types.h:50-56  RGB::operator+ *)
Definition rgb_add (a b : list Z) : res (list Z) :=
  let* b0 := ch b 0 in let* a0 := ch a 0 in
  let* b1 := ch b 1 in let* a1 := ch a 1 in
  let* b2 := ch b 2 in let* a2 := ch a 2 in
  Ok [u8 (b0 + a0); u8 (b1 + a1); u8 (b2 + a2)].

(** base_types.h:58-64  RGB::operator- *)
Definition rgb_sub (a b : list Z) : res (list Z) :=
  let* b0 := ch b 0 in let* a0 := ch a 0 in
  let* b1 := ch b 1 in let* a1 := ch a 1 in
  let* b2 := ch b 2 in let* a2 := ch a 2 in
  Ok [u8 (a0 - b0); u8 (a1 - b1); u8 (a2 - b2)].

(** base_types.h:147-155, 157-165  MultiChannel::operator+ and -; [f] is the channel operation including the
    conversion back to ElementT, [junk] the content of the uninitialised result array.
    base_types.h:191-199, 201-209  Point::operator+ and - are the same loop. *)
Definition array_op {A} (junk : list A) (f : A -> A -> A) (a b : list A) : res (list A) :=
  for_range (length a) (fun i out =>
    let* x := vget a i in let* y := vget b i in vset out i (f x y)) junk.

Definition point_add (junk a b : list nat) : res (list nat) := array_op junk uadd a b.
Definition point_sub (junk a b : list nat) : res (list nat) := array_op junk usub a b.

(** ** planes *)
(** image_operations.h:261-266  check_size_same *)
Definition check_size_same {A B} (x : image A) (y : image B) : res unit :=
  if size_eqb (dims x) (dims y) then Ok tt else Throw RuntimeError.

(** [#pragma omp parallel for] over [0, n) writing out[i] = g i into a value-initialised vector;
    [s] is the order in which the iterations take effect *)
Definition fill {B} (s : nat -> list nat) (n : nat) (d : B) (g : nat -> res B) : res (list B) :=
  for_list (s n) (fun i out => let* v := g i in vset out i v) (repeat d n).

(** an order of a one-dimensional parallel loop *)
Definition sched1_ok (s : nat -> list nat) : Prop := forall n, Permutation (s n) (seq 0 n).
(** the order of a sequential loop *)
Definition seq0 (n : nat) : list nat := seq 0 n.

Section Planes.
  Context {A : Type}.
  Variable s : nat -> list nat.
  Variable d : list A.      (* value-initialised pixel *)
  Variable d1 : A.          (* value-initialised channel *)

  (** image_operations.h:970-991 constructRGB, 993-1014 constructRGBDOUBLE, 1016-1037 constructHSV,
      1118-1141 constructMultiChannel with three planes: the same loop *)
  Definition construct3 (r g b : image A) : res (image (list A)) :=
    let* _ := check_size_same r g in
    let* _ := check_size_same g b in
    let* data := fill s (count r) d (fun i =>
      let* x := vget (pix r) i in let* y := vget (pix g) i in let* z := vget (pix b) i in Ok [x; y; z]) in
    image_data data (dims r).

  (** 1085-1098  constructMultiChannel of one plane *)
  Definition construct1 (p : image A) : res (image (list A)) :=
    let* data := fill s (count p) d (fun i => let* x := vget (pix p) i in Ok [x]) in
    image_data data (dims p).

  (** 1100-1116  constructMultiChannel of two planes *)
  Definition construct2 (p q : image A) : res (image (list A)) :=
    let* _ := check_size_same p q in
    let* data := fill s (count p) d (fun i =>
      let* x := vget (pix p) i in let* y := vget (pix q) i in Ok [x; y]) in
    image_data data (dims p).

  (** 1048-1060  addChannel on vectors of pixels (sequential loop) *)
  Definition add_channel_vec (ps : list (list A)) (xs : list A) : res (list (list A)) :=
    if negb (length ps =? length xs) then Throw RuntimeError
    else fill seq0 (length ps) d (fun i => let* p := vget ps i in let* x := vget xs i in Ok (p ++ [x])).

  (** 1062-1074  addChannel on images *)
  Definition add_channel (im : image (list A)) (p : image A) : res (image (list A)) :=
    if negb (size_eqb (dims im) (dims p)) then Throw RuntimeError
    else let* data := add_channel_vec (pix im) (pix p) in image_data_rvalue data (dims im).

  (** 1084-1147  constructMultiChannel of any number of planes (1076-1082: addChannel of several planes) *)
  Definition construct_multichannel (ps : list (image A)) : res (image (list A)) :=
    match ps with
    | [] => UB                          (* no such overload *)
    | [a] => construct1 a
    | [a; b] => construct2 a b
    | a :: b :: c :: rest =>
        let* o := construct3 a b c in for_list rest (fun p o => add_channel o p) o
    end.

  (** 1191-1221  getPlane of RGB, HSV, RGB_DOUBLE: the channel index is not checked *)
  Definition get_plane (im : image (list A)) (index : nat) : res (image A) :=
    let* data := fill s (count im) d1 (fun i => let* p := vget (pix im) i in vget p index) in
    image_data data (dims im).

  (** 1223-1242  getPlane of MultiChannel<T, n> *)
  Definition get_plane_mc (n : nat) (im : image (list A)) (index : nat) : res (image A) :=
    if n <=? index then Throw RuntimeError else get_plane im index.
End Planes.

(** image_operations.h:1553-1617  apply_each on a three channel image: the operation on each plane
    ([std::async] tasks, joined in this order), then reassembly *)
Definition apply_each3 {A B} (s : nat -> list nat) (d1 : A) (d : list B) (op : image A -> res (image B))
  (im : image (list A)) : res (image (list B)) :=
  let* r := (let* p := get_plane s d1 im 0 in op p) in
  let* g := (let* p := get_plane s d1 im 1 in op p) in
  let* b := (let* p := get_plane s d1 im 2 in op p) in
  construct3 s d r g b.

(** 1619-1637  apply_each on MultiChannel<T, n> *)
Definition apply_each_mc {A B} (s : nat -> list nat) (n : nat) (d1 : A) (d : list B) (op : image A -> res (image B))
  (im : image (list A)) : res (image (list B)) :=
  let* ps := mapM (fun k => let* p := get_plane_mc s d1 n im k in op p) (seq 0 n) in
  construct_multichannel s d ps.

(** ** pixelwise operations *)
(** 1513-1540  apply_each_pixel (execution policy or OpenMP): result vector sized by count() *)
Definition apply_each_pixel {A B} (s : nat -> list nat) (d : B) (op : A -> B) (im : image A) : res (image B) :=
  let* data := fill s (count im) d (fun i => let* x := vget (pix im) i in Ok (op x)) in
  image_data data (dims im).

(** 1542-1551  apply_threshold_openmp; [lo], [hi] are numeric_limits lowest and max *)
Definition apply_threshold {A} (s : nat -> list nat) (d lo hi : A) (ltb : A -> A -> bool) (t : A) (im : image A)
  : res (image A) :=
  apply_each_pixel s d (fun p => if ltb t p then hi else lo) im.

(** 2044-2056  pixelwise_transform (recursive_transform level 1, basic_functions.h:1165-1195) *)
Definition pixelwise1 {A B} (f : A -> B) (im : image A) : res (image B) := image_data (map f (pix im)) (dims im).
Definition pixelwise2 {A B C} (f : A -> B -> C) (x : image A) (y : image B) : res (image C) :=
  let* p := transform2 f (pix x) (pix y) in image_data p (dims x).

(** 2058-2070  pixelwise_transform with an execution policy: result vector resized to the input's length *)
Definition pixelwise1_policy {A B} (s : nat -> list nat) (d : B) (f : A -> B) (im : image A) : res (image B) :=
  let* data := fill s (length (pix im)) d (fun i => let* x := vget (pix im) i in Ok (f x)) in
  image_data data (dims im).

(** 3314-3334  add(img, rest...) = pixelwise plus of img and add(rest...): no size check *)
Fixpoint add_images {A} (plus : A -> A -> A) (im : image A) (rest : list (image A)) : res (image A) :=
  match rest with
  | [] => Ok im
  | b :: rest' => let* r := add_images plus b rest' in pixelwise2 plus im r
  end.

(** 3346-3352  subtract on element types with operator- *)
Definition subtract {A} (minus : A -> A -> A) (x y : image A) : res (image A) :=
  let* _ := check_size_same x y in pixelwise2 minus x y.

(** std::clamp(v, 0, 255) *)
Definition clamp255 (v : Z) : Z := if (v <? 0)%Z then 0%Z else if (255 <? v)%Z then 255%Z else v.

(** 3375-3391  the lambda of subtract on RGB; [junk] is the uninitialised local *)
Definition rgb_sat_sub (junk : list Z) (x y : list Z) : res (list Z) :=
  for_range 3 (fun c rgb => let* a := vget x c in let* b := vget y c in vset rgb c (clamp255 (a - b))) junk.

(** std::transform over two vectors with a fallible functor *)
Fixpoint transform2M {B C D} (f : B -> C -> res D) (l1 : list B) (l2 : list C) : res (list D) :=
  match l1 with
  | [] => Ok []
  | a :: l1' =>
      match l2 with
      | [] => UB
      | b :: l2' => let* v := f a b in let* r := transform2M f l1' l2' in Ok (v :: r)
      end
  end.

(** 3370-3394  subtract on RGB images *)
Definition subtract_rgb (junk : list Z) (x y : image (list Z)) : res (image (list Z)) :=
  let* _ := check_size_same x y in
  let* p := transform2M (rgb_sat_sub junk) (pix x) (pix y) in image_data p (dims x).

(** 3396-3412  subtract on RGB_DOUBLE and HSV: channel differences, [f] is the subtraction of doubles *)
Definition array3_op {A} (f : A -> A -> A) (junk x y : list A) : res (list A) :=
  for_range 3 (fun c o => let* a := vget x c in let* b := vget y c in vset o c (f a b)) junk.
Definition subtract3 {A} (f : A -> A -> A) (junk : list A) (x y : image (list A)) : res (image (list A)) :=
  let* _ := check_size_same x y in
  let* p := transform2M (array3_op f junk) (pix x) (pix y) in image_data p (dims x).

(** 3414-3423  pixelwise_multiplies of two images *)
Definition pixelwise_multiplies {A B C} (times : A -> B -> C) (x : image A) (y : image B) : res (image C) :=
  if negb (size_eqb (dims x) (dims y)) then Throw RuntimeError else pixelwise2 times x y.

(** 3425-3480  multiplies by a scalar: an image of the same size filled with the scalar ([d]: TimesT{}) *)
Definition multiplies_scalar {A B C} (times : A -> B -> C) (d k : B) (x : image A) : res (image C) :=
  let* im := image_data (repeat d (count x)) (dims x) in
  pixelwise_multiplies times x (set_all_value im k).

(** 3575-3589  divides: by an image of the same shape filled with the scalar; no size check for two images *)
Definition divides {A} (div : A -> A -> A) (x y : image A) : res (image A) := pixelwise2 div x y.
Definition divides_scalar {A} (div : A -> A -> A) (k : A) (x : image A) : res (image A) :=
  let* im := image_data (pix x) (dims x) in divides div x (set_all_value im k).

(** 3599-3602  negate; 3887-3898  difference of arithmetic images (the C++ result of uint8 operands is int) *)
Definition negate {A} (neg : A -> A) (x : image A) : res (image A) := pixelwise1 neg x.
Definition difference (x y : image Z) : res (image Z) :=
  pixelwise2 (fun a b => if (b <? a)%Z then (a - b)%Z else (b - a)%Z) x y.

(** ** conversions (1149-1190, 1711-1733) *)
(** static_cast<double>(uint8) is exact; static_cast<uint8>(double) truncates and is UB outside (-1, 256) *)
Definition double_of_u8 (z : Z) : Q := inject_Z z.
Definition u8_of_double (q : Q) : res Z :=
  let t := (if Qle_bool 0 q then Qfloor q else Qceiling q) in
  if ((0 <=? t) && (t <? 256))%Z then Ok t else UB.

(** 1149-1169  convert_image to RGB_DOUBLE or HSV;  1171-1190  to RGB *)
Definition convert3 {A B} (s : nat -> list nat) (d : list B) (f : A -> res B) (im : image (list A))
  : res (image (list B)) :=
  let* data := fill s (count im) d (fun i =>
    let* p := vget (pix im) i in
    let* a := vget p 0 in let* b := vget p 1 in let* c := vget p 2 in
    let* a' := f a in let* b' := f b in let* c' := f c in Ok [a'; b'; c']) in
  image_data data (dims im).
Definition im2double (s : nat -> list nat) (im : image (list Z)) : res (image (list Q)) :=
  convert3 s [0; 0; 0]%Q (fun z => Ok (double_of_u8 z)) im.
Definition im2uint8 (s : nat -> list nat) (im : image (list Q)) : res (image (list Z)) :=
  convert3 s [0; 0; 0]%Z u8_of_double im.
(** grey images: Image::cast (image.h:351-364) *)
Definition im2double_gray (im : image Z) : res (image Q) := cast double_of_u8 im.
Definition im2uint8_gray (im : image Q) : res (image Z) :=
  let* p := mapM u8_of_double (pix im) in image_data p (dims im).

(** ** interleavings of parallel tasks
    Task i of a parallel loop has two atomic steps: compute the value from the (unchanging) input into a local
    variable, then store it into element i of the shared output.  A trace is the list of the tasks taking a step. *)
Record par_state (B : Type) := mkPar { par_pc : nat -> nat; par_loc : nat -> option B; par_out : list B }.
Arguments mkPar {B} par_pc par_loc par_out.
Arguments par_pc {B} p.
Arguments par_loc {B} p.
Arguments par_out {B} p.

Definition par_step {B} (g : nat -> res B) (i : nat) (st : par_state B) : res (par_state B) :=
  let bump := fun k => if k =? i then par_pc st i + 1 else par_pc st k in
  match par_pc st i with
  | 0 => let* v := g i in Ok (mkPar bump (fun k => if k =? i then Some v else par_loc st k) (par_out st))
  | 1 => match par_loc st i with
         | Some v => let* o := vset (par_out st) i v in Ok (mkPar bump (par_loc st) o)
         | None => UB
         end
  | _ => Ok st                            (* finished *)
  end.
Definition par_run {B} (n : nat) (d : B) (g : nat -> res B) (trace : list nat) : res (par_state B) :=
  for_list trace (par_step g) (mkPar (fun _ => 0) (fun _ => None) (repeat d n)).
