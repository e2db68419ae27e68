(** CubeModel.v - cube.h: VolumetricImage, and the voxelwise operations of cube_operations.h.

    Extents, coordinates and offsets are size_t, here integers with arithmetic modulo 2^64.  The compound assignments of
    cube.h:128-158 and subtract (cube_operations.h:206-211) call members getSizeX/Y/Z that the class does not have; they
    cannot be instantiated and are not modelled. *)
From Verif Require Import Base ImageModel NestedModel.
Open Scope Z_scope.

Record vol (A : Type) : Type := mkVol { vwidth : Z; vheight : Z; vdepth : Z; vdata : list A }.
Arguments mkVol {A}. Arguments vwidth {A}. Arguments vheight {A}. Arguments vdepth {A}. Arguments vdata {A}.

(** data[i], undefined outside *)
Definition zget {A} (l : list A) (i : Z) : res A := if i <? Z.of_nat (length l) then vget l (Z.to_nat i) else UB.
Definition zset {A} (l : list A) (i : Z) (v : A) : res (list A) := if i <? Z.of_nat (length l) then vset l (Z.to_nat i) v else UB.
(** std::vector(n, v): std::length_error beyond max_size *)
Definition new_vector {A} (max_size n : Z) (v : A) : res (list A) :=
  if max_size <? n then Throw LogicError else Ok (repeat v (Z.to_nat n)).
(** width * height * depth *)
Definition vcount (w h d : Z) : Z := w64 (w64 (w * h) * d).

Section Vol.
  Context {A : Type}.

  (** cube.h:30-34: width and height are initialised with themselves, that is read before they have a value *)
  Definition vol_sizes (max_size : Z) (zero : A) (newWidth newHeight newDepth : Z) : res (vol A) := UB.

  (** cube.h:36-40: the extents are ints, converted to size_t *)
  Definition vol_fill (max_size newWidth newHeight newDepth : Z) (initVal : A) : res (vol A) :=
    let width := w64 newWidth in let height := w64 newHeight in let depth := w64 newDepth in
    let* data := new_vector max_size (vcount width height depth) initVal in
    Ok (mkVol width height depth data).

  (** cube.h:42-52 *)
  Definition vol_data (input : list A) (newWidth newHeight newDepth : Z) : res (vol A) :=
    if negb (Z.of_nat (length input) =? vcount newWidth newHeight newDepth) then Throw RuntimeError
    else Ok (mkVol newWidth newHeight newDepth input).

  (** z * width * height + y * width + x *)
  Definition voffset (w h x y z : Z) : Z := w64 (w64 (w64 (z * w) * h) + w64 (y * w) + x).

  (** cube.h:54-71; input[0] of an empty vector is undefined *)
  Definition vol_images (max_size : Z) (zero : A) (input : list (image A)) : res (vol A) :=
    let* first := vget input 0 in
    let* wn := get_width first in
    let* hn := get_height first in
    let width := Z.of_nat wn in let height := Z.of_nat hn in let depth := Z.of_nat (length input) in
    let* data := new_vector max_size (vcount width height depth) zero in
    let* data := for_range (length input) (fun z data => for_range hn (fun y data => for_range wn (fun x data =>
        let* plane := vget input z in
        let* v := at_ plane [x; y] in
        zset data (voffset width height (Z.of_nat x) (Z.of_nat y) (Z.of_nat z)) v) data) data) data in
    Ok (mkVol width height depth data).

  (** cube.h:190-198 checkBoundary *)
  Definition vcheck_boundary (v : vol A) (x y z : Z) : res unit :=
    if vwidth v <=? x then Throw OutOfRange else
    if vheight v <=? y then Throw OutOfRange else
    if vdepth v <=? z then Throw OutOfRange else Ok tt.
  (** cube.h:73-83 at: reading and assigning through the returned reference *)
  Definition vat (v : vol A) (x y z : Z) : res A :=
    let* _ := vcheck_boundary v x y z in zget (vdata v) (voffset (vwidth v) (vheight v) x y z).
  Definition vat_set (v : vol A) (x y z : Z) (a : A) : res (vol A) :=
    let* _ := vcheck_boundary v x y z in
    let* data := zset (vdata v) (voffset (vwidth v) (vheight v) x y z) a in
    Ok (mkVol (vwidth v) (vheight v) (vdepth v) data).

  (** cube.h:102-119 print: the values, separators and line ends written *)
  Inductive token : Type := Value (a : A) | Separator | Newline.
  Definition vprint (v : vol A) : res (list token) :=
    let* os := for_range (Z.to_nat (vdepth v)) (fun z os =>
      let* os := for_range (Z.to_nat (vheight v)) (fun y os =>
        let* os := for_range (Z.to_nat (vwidth v)) (fun x os =>
          let* a := vat v (Z.of_nat x) (Z.of_nat y) (Z.of_nat z) in Ok (os ++ [Value a; Separator])) os in
        Ok (os ++ [Newline])) os in
      Ok (os ++ [Newline])) [] in
    Ok (os ++ [Newline]).
End Vol.
Arguments token : clear implicits.

(** cube_operations.h:148-163 voxelwiseOperation of one and of two volumes: recursive_transform<1> of the data, then the
    data constructor with the extents of the first *)
Definition voxelwise1 {A B} (op : A -> B) (v : vol A) : res (vol B) :=
  let* data := recursive_transform (fun a => Ok (op a)) 1 (vdata v) in vol_data data (vwidth v) (vheight v) (vdepth v).
Definition voxelwise2 {A B C} (op : A -> B -> C) (v : vol A) (u : vol B) : res (vol C) :=
  let* data := recursive_transform2 op 1 (vdata v) (vdata u) in vol_data data (vwidth v) (vheight v) (vdepth v).
(** cube_operations.h:182-193 plus, right-nested *)
Fixpoint vplus {A} (add : A -> A -> A) (v : vol A) (vs : list (vol A)) : res (vol A) :=
  match vs with
  | [] => Ok v
  | u :: us => let* rest := vplus add u us in voxelwise2 add v rest
  end.
(** cube_operations.h:225-229 multiplies of two volumes (divides 256-259 and modulus 280-283 are the same with another
    operation, negate 286-289 is voxelwise1); 231-246 by a number: through a volume filled with it, whose extents are ints *)
Definition vmultiplies {A} (mul : A -> A -> A) (v u : vol A) : res (vol A) := voxelwise2 mul v u.
(** conversion of a size_t to int, modulo 2^32 *)
Definition to_int32 (z : Z) : Z := (z + 2 ^ 31) mod 2 ^ 32 - 2 ^ 31.
Definition vmultiplies_number {A} (max_size : Z) (mul : A -> A -> A) (v : vol A) (times : A) : res (vol A) :=
  let* u := vol_fill max_size (to_int32 (vwidth v)) (to_int32 (vheight v)) (to_int32 (vdepth v)) times in vmultiplies mul v u.
