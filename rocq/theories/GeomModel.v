(** GeomModel.v - geometric image operations of image_operations.h: transpose, flips, quarter turn,
    crops, split/concat, paste2D and the paddings.

    Loops run by OpenMP or under an execution policy take the order of their index pairs from the
    parameter [sg] (one order per loop extent); the sequential order is [grid]. *)
From Verif Require Import Base ImageModel IndexModel.

(** [if (input.getDimensionality() != 2) throw std::runtime_error(...)] *)
Definition check2d {A} (im : image A) : res unit :=
  if get_dimensionality im =? 2 then Ok tt else Throw RuntimeError.

Section Geom.
  Context {A : Type}.
  Variable d : A.                                   (* ElementT{} *)
  Variable sg : nat -> nat -> list (nat * nat).     (* order of parallel loops *)
  Implicit Types im : image A.

  (** image_operations.h:5151-5169  transpose *)
  Definition transpose im : res (image A) :=
    let* _ := check2d im in
    let* w := get_width im in let* h := get_height im in
    for_range h (fun y s => for_range w (fun x s =>
      let* v := at_ im [x; y] in at_set s [y; x] v) s) (image_sizes d [h; w]).

  (** image_operations.h:5171-5199  transpose with an execution policy *)
  Definition transpose_policy im : res (image A) :=
    let* _ := check2d im in
    let* w := get_width im in let* h := get_height im in
    for_list (sg h w) (fun p s => let* v := at_ im [snd p; fst p] in at_set s [fst p; snd p] v)
             (image_sizes d [h; w]).

  (** image_operations.h:5201-5221  flip_horizontal (output starts as a copy of the input) *)
  Definition flip_horizontal im : res (image A) :=
    let* _ := check2d im in
    let* h := get_height im in let* w := get_width im in
    for_list (sg h w) (fun p s =>
      let* v := atu im [snd p; fst p] in atu_set s [w - snd p - 1; fst p] v) im.

  (** image_operations.h:5223-5243  flip_vertical *)
  Definition flip_vertical im : res (image A) :=
    let* _ := check2d im in
    let* h := get_height im in let* w := get_width im in
    for_list (sg h w) (fun p s =>
      let* v := atu im [snd p; fst p] in atu_set s [snd p; h - fst p - 1] v) im.

  (** image_operations.h:5245-5268  flip_horizontal_vertical *)
  Definition flip_horizontal_vertical im : res (image A) :=
    let* _ := check2d im in
    let* h := get_height im in let* w := get_width im in
    for_list (sg h w) (fun p s =>
      let* v := atu im [snd p; fst p] in atu_set s [w - snd p - 1; h - fst p - 1] v) im.

  (** image_operations.h:4733-4746  rotate_detail for a quarter turn *)
  Definition rotate_quarter im : res (image A) :=
    let* _ := check2d im in
    let* h := get_height im in let* w := get_width im in
    for_range h (fun y s => for_range w (fun x s =>
      let* v := at_ im [x; y] in at_set s [h - y - 1; x] v) s) (image_sizes d [h; w]).

  (** image_operations.h:1777-1862  subimage; the start offset is size_t arithmetic modulo 2^64.
      floor(double(size)/2.0) is size/2 for sizes exactly representable as double. *)
  Definition subimage_start (centers sizes : list nat) : list Z :=
    map (fun cs => w64 (Z.of_nat (fst cs) - Z.of_nat (snd cs / 2))) (combine centers sizes).

  (** 1836-1847: input_indices[i] = start[i] + output_indices[i]; stop at the first index outside *)
  Fixpoint subimage_index (start : list Z) (out_idx : list nat) (in_sizes : list nat) : option (list nat) :=
    match start, out_idx, in_sizes with
    | s :: start', o :: out_idx', n :: in_sizes' =>
        let i := w64 (s + Z.of_nat o) in
        if (Z.of_nat n <=? i)%Z then None
        else match subimage_index start' out_idx' in_sizes' with
             | Some r => Some (Z.to_nat i :: r)
             | None => None
             end
    | _, _, _ => Some []
    end.

  Fixpoint strides_from (s : nat) (sizes : list nat) : list nat :=
    match sizes with
    | [] => []
    | n :: sizes' => s :: strides_from (s * n) sizes'
    end.

  Definition subimage im (new_sizes centers : list nat) (default : A) : res (image A) :=
    if negb (length new_sizes =? get_dimensionality im) || negb (length centers =? get_dimensionality im)
    then Throw RuntimeError
    else
      let start := subimage_start centers new_sizes in
      let* output := image_data (repeat d (prodn new_sizes)) new_sizes in
      let strides := strides_from 1 new_sizes in
      for_range (count output) (fun k s =>
        let* oi := linear_index_to_indices_strides k strides new_sizes in
        match subimage_index start oi (dims im) with
        | Some ii => let* v := at_range im ii in set_index s k v
        | None => set_index s k default
        end) output.

  (** image_operations.h:1907-1939  subimage2.  The rectangle test uses > (not >=). *)
  Definition subimage2 im (x1 x2 y1 y2 : nat) : res (image A) :=
    if x2 <? x1 then Throw RuntimeError
    else if y2 <? y1 then Throw RuntimeError
    else
      let* w := get_width im in
      if (w <? x1) || (w <? x2) then Throw RuntimeError
      else
        let* h := get_height im in
        if (h <? y1) || (h <? y2) then Throw RuntimeError
        else
          let ow := x2 - x1 + 1 in let oh := y2 - y1 + 1 in
          for_list (sg oh ow) (fun p s =>
            let* v := atu im [x1 + snd p; y1 + fst p] in atu_set s [snd p; fst p] v)
            (image_sizes d [ow; oh]).

  (** image_operations.h:1969-1993  split *)
  Definition split im (xseg yseg : nat) : res (list (list (image A))) :=
    let* w := get_width im in let* h := get_height im in
    let* bx := udiv w xseg in let* by_ := udiv h yseg in
    mapM (fun y => mapM (fun x =>
            subimage2 im (x * bx) (usub ((x + 1) * bx) 1) (y * by_) (usub ((y + 1) * by_) 1))
          (seq 0 xseg)) (seq 0 yseg).

  (** image_operations.h:2104-2124  concat_horizontal of two images *)
  Definition concat_horizontal2 im1 im2 : res (image A) :=
    let* h1 := get_height im1 in let* h2 := get_height im2 in
    if negb (h1 =? h2) then Throw RuntimeError
    else
      let* w1 := get_width im1 in let* w2 := get_width im2 in
      let* o1 := for_range h1 (fun y s => for_range w1 (fun x s =>
                   let* v := at_ im1 [x; y] in at_set s [x; y] v) s) (image_sizes d [w1 + w2; h1]) in
      for_range h2 (fun y s => for_range w2 (fun x s =>
        let* v := at_ im2 [x; y] in at_set s [w1 + x; y] v) s) o1.

  (** image_operations.h:2126-2136  concat_horizontal of a vector: input[0] of an empty vector is UB *)
  Definition concat_horizontal (ims : list (image A)) : res (image A) :=
    match ims with
    | [] => UB
    | im :: ims' => for_list ims' (fun im' s => concat_horizontal2 s im') im
    end.

  (** image_operations.h:2138-2158 *)
  Definition concat_vertical2 im1 im2 : res (image A) :=
    let* w1 := get_width im1 in let* w2 := get_width im2 in
    if negb (w1 =? w2) then Throw RuntimeError
    else
      let* h1 := get_height im1 in let* h2 := get_height im2 in
      let* o1 := for_range h1 (fun y s => for_range w1 (fun x s =>
                   let* v := at_ im1 [x; y] in at_set s [x; y] v) s) (image_sizes d [w1; h1 + h2]) in
      for_range h2 (fun y s => for_range w2 (fun x s =>
        let* v := at_ im2 [x; y] in at_set s [x; h1 + y] v) s) o1.

  (** image_operations.h:2160-2169 *)
  Definition concat_vertical (ims : list (image A)) : res (image A) :=
    match ims with
    | [] => UB
    | im :: ims' => for_list ims' (fun im' s => concat_vertical2 s im') im
    end.

  (** image_operations.h:2171-2179  concat: rows horizontally, then the results vertically *)
  Definition concat (imss : list (list (image A))) : res (image A) :=
    let* rows := mapM concat_horizontal imss in concat_vertical rows.

  (** image_operations.h:4656-4717  paste2D.  The sums of extent and location are size_t sums. *)
  Definition paste2D bg tg (xl yl : nat) (default : A) : res (image A) :=
    let* _ := check2d bg in let* _ := check2d tg in
    let* bw := get_width bg in let* bh := get_height bg in
    let* tw := get_width tg in let* th := get_height tg in
    if (uadd tw xl <=? bw) && (uadd th yl <=? bh) then
      for_range th (fun y s => for_range tw (fun x s =>
        let* v := atu tg [x; y] in atu_set s [uadd xl x; uadd yl y] v) s) bg
    else
      let xs := if uadd tw xl <=? bw then bw else uadd tw xl in
      let ys := if uadd th yl <=? bh then bh else uadd th yl in
      let* output := image_data (repeat default (xs * ys)) [xs; ys] in
      let* o1 := for_range bh (fun y s => for_range bw (fun x s =>
                   let* v := atu bg [x; y] in atu_set s [x; y] v) s) output in
      for_range th (fun y s => for_range tw (fun x s =>
        let* v := atu tg [x; y] in atu_set s [uadd xl x; uadd yl y] v) s) o1.

  (** image_operations.h:5270-5299  generate_constant_padding_image *)
  Definition constant_padding im (we he : nat) (default : A) : res (image A) :=
    let* _ := check2d im in
    let* w := get_width im in let* h := get_height im in
    paste2D (set_all_value (image_sizes d [w + 2 * we; h + 2 * he]) default) im we he default.

  (** image_operations.h:5301-5411  generate_mirror_padding_image *)
  Definition mirror_padding im (we he : nat) (default : A) : res (image A) :=
    let* _ := check2d im in
    let* w := get_width im in let* h := get_height im in
    let* o0 := constant_padding im we he default in
    let* fv := flip_vertical im in
    let* p1 := subimage2 fv 0 (usub w 1) (usub (usub h he) 1) (usub h 1) in
    let* o1 := paste2D o0 p1 we 0 default in
    let* p2 := subimage2 fv 0 (usub w 1) 0 he in
    let* o2 := paste2D o1 p2 we (usub (uadd h he) 1) default in
    let* fh := flip_horizontal im in
    let* p3 := subimage2 fh (usub (usub w we) 1) (usub w 1) 0 (usub h 1) in
    let* o3 := paste2D o2 p3 0 he default in
    let* p4 := subimage2 fh 0 we 0 (usub h 1) in
    let* o4 := paste2D o3 p4 (usub (uadd w we) 1) he default in
    let* fhv := flip_horizontal_vertical im in
    let* p5 := subimage2 fhv (usub (usub w we) 1) (usub w 1) (usub (usub h he) 1) (usub h 1) in
    let* o5 := paste2D o4 p5 0 0 default in
    let* p6 := subimage2 fhv 0 we (usub (usub h he) 1) (usub h 1) in
    let* o6 := paste2D o5 p6 (usub (uadd w we) 1) 0 default in
    let* p7 := subimage2 fhv (usub (usub w we) 1) (usub w 1) 0 he in
    let* o7 := paste2D o6 p7 0 (usub (uadd h he) 1) default in
    let* p8 := subimage2 fhv 0 we 0 he in
    paste2D o7 p8 (usub (uadd w we) 1) (usub (uadd h he) 1) default.

  (** image_operations.h:5413-5526  generate_replicate_padding_image *)
  Definition replicate_padding im (we he : nat) (default : A) : res (image A) :=
    let* _ := check2d im in
    let* w := get_width im in let* h := get_height im in
    let* o0 := constant_padding im we he default in
    let* o1 := for_list (seq 0 he) (fun y s =>
                 let* p := subimage2 im 0 (usub w 1) 0 0 in paste2D s p we y default) o0 in
    let* o2 := for_list (seq (h + he) he) (fun y s =>
                 let* p := subimage2 im 0 (usub w 1) (usub h 1) (usub h 1) in paste2D s p we y default) o1 in
    let* o3 := for_list (seq 0 we) (fun x s =>
                 let* p := subimage2 im 0 0 0 (usub h 1) in paste2D s p x he default) o2 in
    let* o4 := for_list (seq (w + we) we) (fun x s =>
                 let* p := subimage2 im (usub w 1) (usub w 1) 0 (usub h 1) in paste2D s p x he default) o3 in
    let temp := image_sizes d [we; he] in
    let* c1 := at_ im [0; 0] in
    let* o5 := paste2D o4 (set_all_value temp c1) 0 0 default in
    let* c2 := at_ im [usub w 1; 0] in
    let* o6 := paste2D o5 (set_all_value temp c2) (uadd we w) 0 default in
    let* c3 := at_ im [0; usub h 1] in
    let* o7 := paste2D o6 (set_all_value temp c3) 0 (uadd he h) default in
    let* c4 := at_ im [usub w 1; usub h 1] in
    paste2D o7 (set_all_value temp c4) (uadd we w) (uadd he h) default.

  (** image_operations.h:5535-5561  generate_padded_image *)
  Inductive boundary := BConstant | BMirror | BReplicate.
  Definition padded_image im (we he : nat) (bc : boundary) (c : A) : res (image A) :=
    match bc with
    | BConstant => constant_padding im we he c
    | BMirror => mirror_padding im we he c
    | BReplicate => replicate_padding im we he c
    end.

  (** image_operations.h:1995-2042  split_overlap.  static_cast<size_t>((block - 1) / 2.0): the
      subtraction is size_t; the block centre is not shifted by the padding width. *)
  Definition split_overlap im (xseg yseg ex ey : nat) (bc : boundary) (c : A)
    : res (list (list (image A))) :=
    let* w := get_width im in let* h := get_height im in
    let* bx := udiv w xseg in let* by_ := udiv h yseg in
    let* ext := padded_image im ex ey bc c in
    mapM (fun y => mapM (fun x =>
            subimage ext [bx + 2 * ex; by_ + 2 * ey]
                     [x * bx + usub bx 1 / 2; y * by_ + usub by_ 1 / 2] d)
          (seq 0 xseg)) (seq 0 yseg).

  (** image_operations.h:2239-2261  resize_nearest_neighbor; x * (old/new) over exact rationals is
      x * old / new rounded down (new > 0 inside the loops) *)
  Definition resize_nearest_neighbor im (nw nh : nat) : res (image A) :=
    let* w := get_width im in let* h := get_height im in
    for_list (sg nh nw) (fun p s =>
      let* v := atu im [snd p * w / nw; fst p * h / nh] in atu_set s [snd p; fst p] v)
      (image_sizes d [nw; nh]).
End Geom.
Arguments transpose {A} d im.
Arguments transpose_policy {A} d sg im.
Arguments flip_horizontal {A} sg im.
Arguments flip_vertical {A} sg im.
Arguments flip_horizontal_vertical {A} sg im.
