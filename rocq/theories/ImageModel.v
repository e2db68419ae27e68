(** ImageModel.v - the class [Image<ElementT>] of image.h.

    An image is the pair of private members [size] (image.h:780) and [image_data] (image.h:781).
    Extents and indices are [nat]; wrap-around of size_t products is modelled separately in IndexModel.v. *)
From Verif Require Import Base.

Record image (A : Type) : Type := mkImage { dims : list nat; pix : list A }.
Arguments mkImage {A} dims pix.
Arguments dims {A} i.
Arguments pix {A} i.

Section Model.
  Context {A : Type}.
  Implicit Types im : image A.

  (** image.h:73  [Image() = default] *)
  Definition image_default : image A := mkImage [] [].

  (** image.h:75-93  [Image(Sizes... sizes)]: value-initialised elements ([d] is [ElementT{}]).
      The two variadic overloads (size_t and int) differ only in the argument type. *)
  Definition image_sizes (d : A) (sizes : list nat) : image A :=
    mkImage sizes (repeat d (prodn sizes)).

  (** image.h:96-114  [Image(const Sizes& sizes)] *)
  Definition image_sizes_range (d : A) (sizes : list nat) : res (image A) :=
    match sizes with
    | [] => Throw RuntimeError
    | _ => Ok (mkImage sizes (repeat d (prodn sizes)))
    end.

  (** image.h:132-140  [Image(const Range&& input, Sizes... sizes)] (also 118-128): no emptiness check *)
  Definition image_data_rvalue (input : list A) (sizes : list nat) : res (image A) :=
    if negb (length input =? prodn sizes) then Throw RuntimeError
    else Ok (mkImage sizes input).

  (** image.h:161-175 and 183-197  [Image(const Range& input, sizes)] *)
  Definition image_data (input : list A) (sizes : list nat) : res (image A) :=
    match input with
    | [] => Throw RuntimeError
    | _ => if negb (length input =? prodn sizes) then Throw RuntimeError
           else Ok (mkImage sizes input)
    end.

  (** image.h:199-213  [Image(const std::vector<std::vector<ElementT>>& input)]:
      width from the first row, rows flattened, no check that the rows agree *)
  Definition image_rows (input : list (list A)) : res (image A) :=
    match input with
    | [] => Throw RuntimeError
    | row0 :: _ => Ok (mkImage [length row0; length input] (concat input))
    end.

  (** image.h:827-856  calculateIndex: index += idx * stride; stride *= size[i++] *)
  Fixpoint calc_index_loop (sizes idx : list nat) (index stride : nat) : res nat :=
    match idx with
    | [] => Ok index
    | i :: idx' =>
        match sizes with
        | [] => UB                               (* size[i++] past the end *)
        | s :: sizes' => calc_index_loop sizes' idx' (index + i * stride) (stride * s)
        end
    end.
  Definition calculate_index (sizes idx : list nat) : res nat := calc_index_loop sizes idx 0 1.

  (** image.h:866-876  the bound check of one index after the other *)
  Fixpoint check_bounds_loop (sizes idx : list nat) : res unit :=
    match idx with
    | [] => Ok tt
    | i :: idx' =>
        match sizes with
        | [] => UB                               (* size[i] past the end *)
        | s :: sizes' => if s <=? i then Throw OutOfRange else check_bounds_loop sizes' idx'
        end
    end.

  (** image.h:858-877  checkBoundary *)
  Definition check_boundary (sizes idx : list nat) : res unit :=
    if negb (length idx =? length sizes) then Throw RuntimeError
    else check_bounds_loop sizes idx.

  (** image.h:270-291  at_without_boundary_check(indices...): the element's offset *)
  Definition loc_unchecked im (idx : list nat) : res nat :=
    if negb (length idx =? length (dims im)) then Throw RuntimeError
    else calculate_index (dims im) idx.

  (** image.h:218-231  at(indices...): check, then unchecked access *)
  Definition loc_checked im (idx : list nat) : res nat :=
    let* _ := check_boundary (dims im) idx in loc_unchecked im idx.

  (** reading and assigning through the returned reference *)
  Definition at_ im (idx : list nat) : res A :=
    let* k := loc_checked im idx in vget (pix im) k.
  Definition at_set im (idx : list nat) (v : A) : res (image A) :=
    let* k := loc_checked im idx in
    let* p := vset (pix im) k v in Ok (mkImage (dims im) p).
  Definition atu im (idx : list nat) : res A :=
    let* k := loc_unchecked im idx in vget (pix im) k.
  Definition atu_set im (idx : list nat) (v : A) : res (image A) :=
    let* k := loc_unchecked im idx in
    let* p := vset (pix im) k v in Ok (mkImage (dims im) p).

  (** image.h:234-267 and 294-308  the range overloads: bound check without a dimensionality check *)
  Definition at_range im (idx : list nat) : res A :=
    let* _ := check_bounds_loop (dims im) idx in
    let* k := calculate_index (dims im) idx in vget (pix im) k.
  Definition at_range_set im (idx : list nat) (v : A) : res (image A) :=
    let* _ := check_bounds_loop (dims im) idx in
    let* k := calculate_index (dims im) idx in
    let* p := vset (pix im) k v in Ok (mkImage (dims im) p).
  Definition atu_range im (idx : list nat) : res A :=
    let* k := calculate_index (dims im) idx in vget (pix im) k.
  Definition atu_range_set im (idx : list nat) (v : A) : res (image A) :=
    let* k := calculate_index (dims im) idx in
    let* p := vset (pix im) k v in Ok (mkImage (dims im) p).

  (** image.h:366-369  count() *)
  Definition count im : nat := prodn (dims im).

  (** image.h:372-378  count(execution_policy): 0 for an image without extents *)
  Definition count_policy im : nat :=
    match dims im with [] => 0 | _ => prodn (dims im) end.

  (** image.h:311-314  get(index): unchecked *)
  Definition get im (k : nat) : res A := vget (pix im) k.

  (** image.h:319-334  set(index) and assignment through the returned reference *)
  Definition set_index im (k : nat) (v : A) : res (image A) :=
    if count im <=? k then Throw OutOfRange
    else let* p := vset (pix im) k v in Ok (mkImage (dims im) p).

  (** image.h:880-900  checkBoundaryTuple: short-circuit conjunction over the tuple *)
  Fixpoint check_tuple_loop (sizes loc : list nat) : res bool :=
    match loc with
    | [] => Ok true
    | i :: loc' =>
        match sizes with
        | [] => UB
        | s :: sizes' => if s <=? i then Ok false else check_tuple_loop sizes' loc'
        end
    end.
  Definition check_boundary_tuple im (loc : list nat) : res bool :=
    if negb (length loc =? length (dims im)) then Throw RuntimeError
    else check_tuple_loop (dims im) loc.

  (** image.h:337-348  set(tuple, value); tuple_location_to_index (903-917) is the same loop as
      calculateIndex.  Returns the flag and the image after the call. *)
  Definition set_tuple im (loc : list nat) (v : A) : res (bool * image A) :=
    let* inside := check_boundary_tuple im loc in
    if inside then
      let* k := calculate_index (dims im) loc in
      let* p := vset (pix im) k v in Ok (true, mkImage (dims im) p)
    else Ok (false, im).

  (** image.h:380-393 *)
  Definition get_dimensionality im : nat := length (dims im).
  Definition get_width im : res nat := vget (dims im) 0.
  Definition get_height im : res nat :=
    if 1 <? get_dimensionality im then vget (dims im) 1 else Ok 0.

  (** image.h:408-420  getStride *)
  Definition get_stride im (index : nat) : res nat :=
    if index =? 0 then Ok 1
    else for_range index (fun i output => let* s := vget (dims im) i in Ok (output * s)) 1.

  (** image.h:495-508  setAllValue *)
  Definition set_all_value im (v : A) : image A :=
    mkImage (dims im) (map (fun _ => v) (pix im)).

  (** image_operations.h:172-266  is_size_same / check_size_same compare the extents *)
  Definition size_eqb (s1 s2 : list nat) : bool :=
    if list_eq_dec Nat.eq_dec s1 s2 then true else false.

  (** std::transform over [image_data] of the left operand with the right operand's iterator
      running in parallel: reading past the right operand's end is UB *)
  Fixpoint transform2 {B C D} (f : B -> C -> D) (l1 : list B) (l2 : list C) : res (list D) :=
    match l1 with
    | [] => Ok []
    | a :: l1' =>
        match l2 with
        | [] => UB
        | b :: l2' => let* r := transform2 f l1' l2' in Ok (f a b :: r)
        end
    end.

  (** image.h:517-547  operator+=, -=, *=, /= with the functor [f] *)
  Definition op_assign (f : A -> A -> A) im (rhs : image A) : res (image A) :=
    if size_eqb (dims rhs) (dims im) then
      let* p := transform2 f (pix im) (pix rhs) in Ok (mkImage (dims im) p)
    else Throw RuntimeError.
End Model.

(** image.h:351-364  cast: static_cast of every element, then the data/size constructor *)
Definition cast {A B} (f : A -> B) (im : image A) : res (image B) :=
  image_data (map f (pix im)) (dims im).

(** ** pixels_with_coordinates (image.h:589-762)
    Iterator state: position in the vector, px, py; [image_width] is constant. *)
Record piter := mkPiter { it_pos : nat; it_x : nat; it_y : nat }.

(** image.h:610-620  operator++ *)
Definition piter_next (width : nat) (p : piter) : piter :=
  let x := it_x p + 1 in
  if x =? width then mkPiter (it_pos p + 1) 0 (it_y p + 1)
  else mkPiter (it_pos p + 1) x (it_y p).

(** image.h:629  defaulted operator== *)
Definition piter_eqb (p q : piter) : bool :=
  (it_pos p =? it_pos q) && (it_x p =? it_x q) && (it_y p =? it_y q).

(** [for (auto [v,x,y] : image.pixels_with_coordinates())]: the visited triples, in order.
    Dereferencing at or past the end of the vector is UB; the loop has fuel, exhaustion is [None]. *)
Fixpoint piter_run {A} (fuel : nat) (data : list A) (width : nat) (p last : piter)
  : option (res (list (A * nat * nat))) :=
  match fuel with
  | O => None
  | S fuel' =>
      if piter_eqb p last then Some (Ok [])
      else match nth_error data (it_pos p) with
           | None => Some UB
           | Some v =>
               match piter_run fuel' data width (piter_next width p) last with
               | Some (Ok r) => Some (Ok ((v, it_x p, it_y p) :: r))
               | other => other
               end
           end
  end.

Definition pixels_with_coordinates {A} (fuel : nat) (im : image A)
  : option (res (list (A * nat * nat))) :=
  match dims im with
  | [w; h] => piter_run fuel (pix im) w (mkPiter 0 0 0) (mkPiter (length (pix im)) 0 h)
  | _ => Some (Throw LogicError)
  end.
