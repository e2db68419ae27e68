(** FrameModel.v - small helpers of image_operations.h: the predicates over all pixels (46-170), the comparisons of
    extents (172-206), generate (361-385), highlight_region (1941-1967), normalize (2211-2228), add_border_2d (8393-8412). *)
From Verif Require Import Base ImageModel IndexModel GeomModel PixelModel ReduceModel CubeModel.
Open Scope nat_scope.

(** 46-51, 88-93, 130-135  all_of, any_of, none_of: std::ranges algorithms over the image data, which stop at the first
    element that decides *)
Fixpoint list_all_of {A} (p : A -> bool) (l : list A) : bool :=
  match l with [] => true | a :: l => if p a then list_all_of p l else false end.
Fixpoint list_any_of {A} (p : A -> bool) (l : list A) : bool :=
  match l with [] => false | a :: l => if p a then true else list_any_of p l end.
Fixpoint list_none_of {A} (p : A -> bool) (l : list A) : bool :=
  match l with [] => true | a :: l => if p a then false else list_none_of p l end.
Definition im_all_of {A} (im : image A) (p : A -> bool) : bool := list_all_of p (pix im).
Definition im_any_of {A} (im : image A) (p : A -> bool) : bool := list_any_of p (pix im).
Definition im_none_of {A} (im : image A) (p : A -> bool) : bool := list_none_of p (pix im).

(** 53-86, 95-128, 137-170  the comparisons of every element with 0 (integer elements) *)
Definition positive (z : Z) : bool := (0 <? z)%Z.
Definition non_negative (z : Z) : bool := (0 <=? z)%Z.
Definition zero (z : Z) : bool := (z =? 0)%Z.
Definition negative (z : Z) : bool := (z <? 0)%Z.
Definition non_positive (z : Z) : bool := (z <=? 0)%Z.
Definition all_positive im := im_all_of im positive.
Definition all_non_negative im := im_all_of im non_negative.
Definition all_zero im := im_all_of im zero.
Definition all_negative im := im_all_of im negative.
Definition all_non_positive im := im_all_of im non_positive.
Definition any_positive im := im_any_of im positive.
Definition any_non_negative im := im_any_of im non_negative.
Definition any_zero im := im_any_of im zero.
Definition any_negative im := im_any_of im negative.
Definition any_non_positive im := im_any_of im non_positive.
Definition none_positive im := im_none_of im positive.
Definition none_non_negative im := im_none_of im non_negative.
Definition none_zero im := im_none_of im zero.
Definition none_negative im := im_none_of im negative.
Definition none_non_positive im := im_none_of im non_positive.

(** 172-206  is_width_same, is_height_same, is_size_same of two and of three images *)
Definition is_width_same {A B} (x : image A) (y : image B) : res bool :=
  let* a := get_width x in let* b := get_width y in Ok (a =? b).
Definition is_height_same {A B} (x : image A) (y : image B) : res bool :=
  let* a := get_height x in let* b := get_height y in Ok (a =? b).
Definition is_size_same {A B} (x : image A) (y : image B) : res bool :=
  let* a := is_width_same x y in if a then is_height_same x y else Ok false.
Definition is_size_same3 {A B C} (x : image A) (y : image B) (z : image C) : res bool :=
  let* a := is_size_same x y in if a then is_size_same y z else Ok false.

(** 361-374  generate with std::size_t extents.  The number of elements is reduced into an int (the initial value 1).  libstdc++'s
    std::reduce takes four extents at a time while there are four: two products of std::size_t, each converted to int, their product
    and the product with the initial value are products of ints, which may overflow; the rest one after the other, int times
    std::size_t, converted to int.  A negative number is a vector of more than max_size elements (std::length_error).  The callable is a
    state and a step; std::ranges::generate calls it once per element, in order.  The constructor (image.h:183-197) compares the
    number of elements with the product of the extents as std::size_t.  Lack of memory is not modelled. *)
Fixpoint produce {S A} (gen : S -> A * S) (n : nat) (s : S) : list A :=
  match n with O => [] | Datatypes.S n => let (a, s') := gen s in a :: produce gen n s' end.
Definition int_mul (a b : Z) : res Z := if ((- 2 ^ 31 <=? a * b) && (a * b <? 2 ^ 31))%Z then Ok (a * b)%Z else UB.
Fixpoint reduce_int (sizes : list nat) (init : Z) : res Z :=
  match sizes with
  | a :: b :: c :: d :: rest =>
      let* v := int_mul (to_int32 (w64 (Z.of_nat a * Z.of_nat b))) (to_int32 (w64 (Z.of_nat c * Z.of_nat d))) in
      let* i := int_mul init v in
      reduce_int rest i
  | _ => Ok (fold_left (fun c n => to_int32 (w64 (w64 c * Z.of_nat n))) sizes init)
  end.
Definition generate {S A} (gen : S -> A * S) (s : S) (sizes : list nat) : res (image A) :=
  let* count := reduce_int sizes 1%Z in
  if (count <? 0)%Z then Throw LogicError
  else
    let data := produce gen (Z.to_nat count) s in
    match data with
    | [] => Throw RuntimeError
    | _ => if negb (length data =? wn (Z.of_nat (prodn sizes))) then Throw RuntimeError else Ok (mkImage sizes data)
    end.

(** for (std::size_t i = a; i < b; ++i) *)
Definition span (a b : nat) : list nat := seq a (b - a).
(** std::abs(static_cast<int>(a) - static_cast<int>(b)) < width: the difference of two ints may overflow, the result is
    converted to std::size_t *)
Definition near (a b width : nat) : res bool :=
  let d := (to_int32 (Z.of_nat a) - to_int32 (Z.of_nat b))%Z in
  if (Z.abs d <? 2 ^ 31)%Z then Ok (Z.abs d <? Z.of_nat width)%Z else UB.

(** 1941-1967  highlight_region of an RGB picture; the three channels of a pixel are assigned one after the other, which
    assigns the pixel.  The assertions stop the program: the model says undefined. *)
Definition highlight_region (input : image (list Z)) (startx endx starty endy width : nat) (colour : list Z) : res (image (list Z)) :=
  if (startx <=? endx) && (starty <=? endy) then
    for_list (span (usub starty (width / 2)) (uadd endy (width / 2))) (fun y output =>
      for_list (span (usub startx (width / 2)) (uadd endx (width / 2))) (fun x output =>
        let* marked :=
          let* c := near x startx width in
          if c then Ok true else
          let* c := near x endx width in
          if c then Ok true else
          let* c := near y starty width in
          if c then Ok true else near y endy width in
        if marked then at_set output [x; y] colour else Ok output) output) input
  else UB.

(** 2211-2228  normalize; [lt], [sub], [div] are those of the element type *)
Definition normalize {A} (lt : A -> A -> bool) (sub div : A -> A -> A) (input : image A) : res (image A) :=
  let* max_value := im_max lt input in
  let* min_value := im_min lt input in
  let min_value_plane := set_all_value input min_value in
  let max_value_plane := set_all_value input max_value in
  let* difference_value_plane := subtract sub max_value_plane min_value_plane in
  let* lifted := subtract sub input min_value_plane in
  divides div lifted difference_value_plane.

(** 8393-8412  add_border_2d; the constructor gives the extents as sums of std::size_t, taken not to wrap around (they
    would not fit in memory) *)
Definition add_border_2d {A} (d : A) (input : image A) (width : nat) (default_element : A) : res (image A) :=
  let* _ := check2d input in
  let* w := get_width input in let* h := get_height input in
  paste2D (set_all_value (image_sizes d [w + 2 * width; h + 2 * width]) default_element) input width width default_element.
