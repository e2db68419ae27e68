(** SiftModel.v - image_operations.h:6593-7184, namespace SIFT_impl, with double pixels as real numbers.

    Quotients by zero are kept apart (a double would be infinite or not a number).  The difference of Gaussians
    (generate_octave) and the resampling function (a template parameter of get_potential_keypoint) are parameters here;
    PropScale.v puts in those of the code (GaussModel.v, LanczosModel.v). *)
From Coq Require Import Reals Lra.
From Verif Require Import Base ImageModel OField LinModel JacobiModel GeomModel NestedModel.
Open Scope nat_scope.

Definition rleb (x y : R) : bool := negb (rltb y x).
Definition reqb (x y : R) : bool := if Req_EM_T x y then true else false.

(** vector.erase(begin + k) *)
Definition erase_at {A} (l : list A) (k : nat) : res (list A) :=
  if k <? length l then Ok (firstn k l ++ skipn (S k) l) else UB.

(** static_cast<std::size_t>(double): truncation; undefined when the truncated value is not representable *)
Definition to_size_t (r : R) : res nat :=
  if rleb r (-1) || rleb (IZR two64) r then UB else Ok (Z.to_nat (Int_part r)).

(** ** 6600-6635 is_it_extremum *)
Definition check_3x3 (im : image R) : res unit :=
  if negb (get_dimensionality im =? 2) then Throw RuntimeError else
  let* w := get_width im in
  let* h := get_height im in
  if negb (w =? 3) || negb (h =? 3) then Throw RuntimeError else Ok tt.

Definition is_it_extremum (input1 input2 input3 : image R) (threshold : R) : res bool :=
  let* _ := check_3x3 input1 in
  let* _ := check_3x3 input2 in
  let* _ := check_3x3 input3 in
  let* center := at_ input2 [1; 1] in
  let* data2 := erase_at (pix input2) 4 in
  if rleb (Rabs center) threshold then Ok false else
  let image_datas := [pix input1; data2; pix input3] in
  let* larger := recursive_all_of (fun i => Ok (rltb i center)) (Ok (A := R)) 2 image_datas in
  if larger then Ok true else
  let* smaller := recursive_all_of (fun i => Ok (rltb center i)) (Ok (A := R)) 2 image_datas in
  Ok smaller.

(** ** 6637-6660 keypoint_refinement *)
(** 6647-6651 (and 6670-6672): the derivatives of a 3 x 3 patch *)
Definition derivatives (input : image R) : res (R * R * R * R * R) :=
  let* v21 := at_ input [2; 1] in
  let* v01 := at_ input [0; 1] in
  let* v12 := at_ input [1; 2] in
  let* v10 := at_ input [1; 0] in
  let* v11 := at_ input [1; 1] in
  let* v22 := at_ input [2; 2] in
  let* v20 := at_ input [2; 0] in
  let* v02 := at_ input [0; 2] in
  let* v00 := at_ input [0; 0] in
  Ok ((v21 - v01) / 2, (v12 - v10) / 2, v21 + v01 - 2 * v11, v12 + v10 - 2 * v11, (v22 - v20 - v02 + v00) / 4)%R.

(** the refined location; None: the determinant is zero, both coordinates are infinite or not a number *)
Definition keypoint_refinement (input : image R) (point : nat * nat) : res (option (R * R)) :=
  let* (first_x, first_y, second_x, second_y, second_xy) := derivatives input in
  let det := (second_x * second_y - second_xy * second_xy)%R in
  if reqb det 0 then Ok None else
  let A := (- second_x / det)%R in
  let B := (second_xy / det)%R in
  let C := B in
  let D := (- second_y / det)%R in
  let offset_x := (A * first_x + B * first_y)%R in
  let offset_y := (C * first_x + D * first_y)%R in
  Ok (Some (INR (fst point) + offset_x, INR (snd point) + offset_y)%R).

(** ** 6662-6681 keypoint_filtering *)
(** trace * trace / determinant >= threshold: for a zero determinant the quotient is infinite, or not a number when the
    trace is zero too *)
Definition ratio_at_least (trace det threshold : R) : bool :=
  if reqb det 0 then negb (reqb trace 0) else rleb threshold (trace * trace / det).
Definition keypoint_filtering (input : image R) (contrast edge : R) : res bool :=
  let* (_, _, second_x, second_y, second_xy) := derivatives input in
  let trace := (second_x + second_y)%R in
  let det := (second_x * second_y - second_xy * second_xy)%R in
  let* center := at_ input [1; 1] in
  if rleb center contrast || ratio_at_least trace det edge then Ok false else Ok true.

(** ** 6683-6698 mapping_point; a location that is not finite, or an extent of zero, gives an undefined conversion *)
Definition mapping_point (location : option (R * R)) (input_width input_height target_width target_height : nat) : res (nat * nat) :=
  match location with
  | None => UB
  | Some (x, y) =>
      if (input_width =? 0) || (input_height =? 0) then UB else
      let* px := to_size_t (x / INR input_width * INR target_width)%R in
      let* py := to_size_t (y / INR input_height * INR target_height)%R in
      Ok (px, py)
  end.

(** ** 6700-6775 find_local_extrema *)
(** a keypoint: octave index, scale index, location *)
Definition keypoint : Type := (nat * nat * option (R * R))%type.

(** 6740-6771: the pixels (y, x) at which a keypoint is found, in the order of the loop, with their keypoints *)
Definition extrema_hits (input1 input2 input3 : image R) (octave_index scale_index : nat) (contrast edge : R) (filtering : bool)
    (width height : nat) : res (list (nat * nat * keypoint)) :=
  for_list (seq 1 (height - 1)) (fun y out => for_list (seq 1 (width - 1)) (fun x out =>
    let* sub1 := subimage 0%R input1 [3; 3] [x; y] 0%R in
    let* sub2 := subimage 0%R input2 [3; 3] [x; y] 0%R in
    let* sub3 := subimage 0%R input3 [3; 3] [x; y] 0%R in
    let* extremum := is_it_extremum sub1 sub2 sub3 contrast in
    let* keep := if filtering then (if extremum then keypoint_filtering sub2 contrast edge else Ok false) else Ok extremum in
    if keep then
      let* location := keypoint_refinement sub2 (x, y) in
      Ok (out ++ [(y, x, (octave_index, scale_index, location))])
    else Ok out) out) [].

(** the rows and columns are divided among threads ([owner]); emplace_back of two threads into one vector is a data race *)
Definition one_owner (owner : nat * nat -> nat) (pixels : list (nat * nat)) : bool :=
  match pixels with [] => true | p :: r => forallb (fun q => owner q =? owner p) r end.
Definition find_local_extrema (owner : nat * nat -> nat) (input1 input2 input3 : image R) (octave_index scale_index : nat)
    (contrast edge : R) (filtering : bool) : res (list keypoint) :=
  if negb (get_dimensionality input1 =? 2) then Throw RuntimeError else
  if negb (get_dimensionality input2 =? 2) then Throw RuntimeError else
  if negb (get_dimensionality input3 =? 2) then Throw RuntimeError else
  if negb (if list_eq_dec Nat.eq_dec (dims input1) (dims input2) then true else false) then Throw RuntimeError else
  if negb (if list_eq_dec Nat.eq_dec (dims input2) (dims input3) then true else false) then Throw RuntimeError else
  let* w := get_width input1 in
  let* h := get_height input1 in
  let* hits := extrema_hits input1 input2 input3 octave_index scale_index contrast edge filtering (usub w 1) (usub h 1) in
  if one_owner owner (map fst hits) then Ok (map snd hits) else UB.

(** an exception that leaves the body of an OpenMP loop ends the program *)
Definition omp {A} (r : res A) : res A := match r with Throw _ => UB | _ => r end.

Section Octaves.
  (** difference_of_gaussian(input, sigma1, sigma2) and the resampling function *)
  Variable dog : image R -> R -> R -> res (image R).
  Variable resample : image R -> nat -> nat -> res (image R).

  (** 6783-6802 generate_octave; the differences are computed in an OpenMP loop *)
  Definition generate_octave (input : image R) (levels : nat) (sigma k : R) : res (list (image R)) :=
    if levels <? 2 then Ok [] else
    omp (mapM (fun index => dog input (sigma * k ^ index)%R (sigma * k ^ (index + 1))%R) (seq 0 (levels - 1))).

  (** 6911-6931: the octaves; the loop ends early when an extent is below 20 *)
  Fixpoint build_octaves (octaves_count : nat) (levels : nat) (sigma k : R) (base_image : image R) : res (list (list (image R))) :=
    match octaves_count with
    | O => Ok []
    | S rest =>
        let* w := get_width base_image in
        let* h := get_height base_image in
        if (w <? 20) || (h <? 20) then Ok [] else
        let* octave := generate_octave base_image levels sigma k in
        let* base_image := resample base_image (w / 2) (h / 2) in
        let* octaves := build_octaves rest levels sigma k base_image in
        Ok (octave :: octaves)
    end.

  (** 6943-6998: every octave and every scale; [order] is the order in which the results are appended (the loops' own
      order without threads, any order with a parallel policy) *)
  Definition search_tasks (octaves_count : nat) (octaves : list (list (image R))) : res (list (nat * nat)) :=
    let* rows := mapM (fun octave_index =>
      let* octave := vget octaves octave_index in
      Ok (map (fun scale_index => (octave_index, scale_index)) (seq 0 (usub (length octave) 2)))) (seq 0 octaves_count) in
    Ok (List.concat rows).
  Definition search_octaves (order : list (nat * nat) -> list (nat * nat)) (owner : nat -> nat -> nat * nat -> nat)
      (octaves_count : nat) (octaves : list (list (image R))) (contrast edge : R) : res (list keypoint) :=
    let* tasks := search_tasks octaves_count octaves in
    for_list (order tasks) (fun task keypoints =>
      let '(octave_index, scale_index) := task in
      let* octave := vget octaves octave_index in
      let* a := vget octave scale_index in
      let* b := vget octave (scale_index + 1) in
      let* c := vget octave (scale_index + 2) in
      let* points := find_local_extrema (owner octave_index scale_index) a b c octave_index scale_index contrast edge false in
      Ok (keypoints ++ points)) [].

  (** 7001-7018 *)
  Definition map_keypoints (octaves : list (list (image R))) (width height : nat) (keypoints : list keypoint) : res (list (nat * nat)) :=
    mapM (fun kp : keypoint =>
      let '(octave_index, _, location) := kp in
      let* octave := vget octaves octave_index in
      let* first := vget octave 0 in
      let* w := get_width first in
      let* h := get_height first in
      mapping_point location w h width height) keypoints.

  (** 6890-7019 get_potential_keypoint *)
  Definition get_potential_keypoint (order : list (nat * nat) -> list (nat * nat)) (owner : nat -> nat -> nat * nat -> nat)
      (input : image R) (octaves_count levels : nat) (sigma k contrast edge : R) : res (list (nat * nat)) :=
    if negb (get_dimensionality input =? 2) then Throw RuntimeError else
    let* octaves := build_octaves octaves_count levels sigma k input in
    let* keypoints := search_octaves order owner octaves_count octaves contrast edge in
    let* w := get_width input in
    let* h := get_height input in
    map_keypoints octaves w h keypoints.
End Octaves.

(** ** 7060-7085 compute_each_pixel_orientation: magnitude and angle in degrees *)
Definition compute_each_pixel_orientation (input : image R) : res (R * R) :=
  if negb (get_dimensionality input =? 2) then Throw RuntimeError else
  let* w := get_width input in
  let* h := get_height input in
  if negb (w =? 3) || negb (h =? 3) then Throw RuntimeError else
  let* v21 := atu input [2; 1] in
  let* v01 := atu input [0; 1] in
  let* v12 := atu input [1; 2] in
  let* v10 := atu input [1; 0] in
  let dx := (v21 - v01)%R in
  let dy := (v12 - v10)%R in
  Ok (sqrt (dx * dx + dy * dy), atan2 dy dx * (180 / PI) + 180)%R.

(** histogram[bin] += v *)
Definition hist_add (histogram : list R) (bin : nat) (v : R) : res (list R) :=
  let* old := vget histogram bin in vset histogram bin (old + v)%R.

(** [for (size_t i = start; i <= last; ++i)] and [i < last]; start may be larger *)
Definition up_to (start last : nat) : list nat := seq start (S last - start).
Definition below (start last : nat) : list nat := seq start (last - start).

(** ** 7087-7116 get_orientation_histogram *)
Definition get_orientation_histogram (input : image R) (point : nat * nat) (block_size : nat) : res (list R) :=
  if negb (get_dimensionality input =? 2) then Throw RuntimeError else
  for_list (up_to (usub (snd point) block_size) (uadd (snd point) block_size)) (fun y hist =>
    for_list (up_to (usub (fst point) block_size) (uadd (fst point) block_size)) (fun x hist =>
      let* w := get_width input in
      let* h := get_height input in
      if (w <=? x) || (h <=? y) then Ok hist else
      let* sub := subimage 0%R input [3; 3] [x; y] 0%R in
      let* (magnitude, orientation) := compute_each_pixel_orientation sub in
      let* bin := to_size_t (orientation / 10)%R in
      hist_add hist bin magnitude) hist) (repeat 0%R 37).

(** ** 7118-7183 get_keypoint_descriptor *)
Definition pixel_orientations (input : image R) (location : nat * nat) (block_size : nat) : res (image (R * R)) :=
  let center_x := fst location in let center_y := snd location in
  for_list (below (usub center_y block_size) (uadd center_y block_size)) (fun y out =>
    for_list (below (usub center_x block_size) (uadd center_x block_size)) (fun x out =>
      let* w := get_width input in
      let* h := get_height input in
      if (w <=? x) || (h <=? y) then Ok out else
      let* sub := subimage 0%R input [3; 3] [x; y] 0%R in
      let* o := compute_each_pixel_orientation sub in
      at_set out [uadd (usub x center_x) block_size; uadd (usub y center_y) block_size] o) out)
    (image_sizes (0, 0)%R [block_size * 2; block_size * 2]).

Definition subregion_histogram (orientations : image (R * R)) (subregion_x subregion_y : nat) : res (list R) :=
  for_range 4 (fun y hist => for_range 4 (fun x hist =>
    let* (magnitude, orientation) := at_ orientations [subregion_x * 4 + x; subregion_y * 4 + y] in
    let* bin := to_size_t (orientation / 45)%R in
    let bin := if bin =? 8 then 7 else bin in
    hist_add hist bin magnitude) hist) (repeat 0%R 8).

Definition get_keypoint_descriptor (input : image R) (location : nat * nat) (block_size : nat) : res (list R) :=
  let* orientations := pixel_orientations input location block_size in
  let* subregions := for_range 4 (fun subregion_y out => for_range 4 (fun subregion_x out =>
    let* hist := subregion_histogram orientations subregion_x subregion_y in
    at_set out [subregion_x; subregion_y] hist) out) (image_sizes [] [4; 4]) in
  for_range 4 (fun subregion_y feature => for_range 4 (fun subregion_x feature =>
    let* hist := at_ subregions [subregion_x; subregion_y] in Ok (feature ++ hist)) feature) [].
