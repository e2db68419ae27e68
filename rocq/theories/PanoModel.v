(** PanoModel.v - image_operations.h: find_stitch_homography (7913-8028), draw_matches (8283-8315), imstitch (8317-8332),
    stitch_sequential (8334-8391). *)
From Coq Require Import QArith Qcanon.
From Verif Require Import Base ImageModel PixelModel GeomModel DrawModel InterpModel OField LinModel MatchModel HomModel.
Open Scope nat_scope.

(** 7574-7577  RobustEstimatorMethod; any other value of the enumeration is treated as MSAC *)
Inductive estimator := RANSAC | MSAC.

Section Find.
  Variable K : ofield.
  Variables eps big : K.
  Variable solve : matrix K -> res (list K).
  (** SIFT_impl::get_potential_keypoint and get_keypoint_descriptor of the V plane of a picture (SiftModel), and the
      distance of two descriptors *)
  Context {I D : Type} (detect : I -> res (list point)) (describe : I -> point -> res D) (dist : D -> D -> res K).

  Definition scorer_of (m : estimator) : K -> K -> K := match m with RANSAC => ransac_scorer K | MSAC => msac_scorer K end.

  (** 7943-8022  detection, description and matching; None: there are not enough keypoints or matches.
      [s1], [s2] are the orders of the two searches for matches *)
  Definition stitch_matches (s1 s2 : nat -> list nat) (img1 img2 : I) (ratio : K) : res (option (list point * list point * list (nat * nat))) :=
    let* keypoints1 := detect img1 in
    let* keypoints2 := detect img2 in
    if (length keypoints1 =? 0) || (length keypoints2 =? 0) then Ok None
    else
      let* descriptors1 := mapM (describe img1) keypoints1 in
      let* descriptors2 := mapM (describe img2) keypoints2 in
      let* matches := find_robust_matches K big dist s1 s2 descriptors1 descriptors2 ratio in
      if length matches <? 4 then Ok None else Ok (Some (keypoints1, keypoints2, matches)).

  (** 7913-8028  find_stitch_homography; [draws] are the values the distribution will give, the outer None means that more
      of them are needed.  8030-8052 (no policy) calls it with MSAC and a generator seeded from the clock *)
  Definition find_stitch_homography s1 s2 img1 img2 (method : estimator) (draws : list nat) (ratio : K) (iterations : Z) (threshold : K)
    : option (res (matrix K)) :=
    match stitch_matches s1 s2 img1 img2 ratio with
    | Ok None => Some (Ok (mat_new f0 0 0))
    | Ok (Some (keypoints1, keypoints2, matches)) =>
        match find_homography_robust K eps big solve (scorer_of method) keypoints1 keypoints2 matches draws iterations threshold with
        | None => None
        | Some r => Some (let* initial_H := r in refine_homography K eps solve keypoints1 keypoints2 matches initial_H threshold)
        end
    | Throw e => Some (Throw e)
    | UB => Some UB
    end.
End Find.

Section Sequence.
  Variables eps inv_eps : Qcfield.
  Variable interp : image (list Z) -> Qcfield -> Qcfield -> res (list Z).
  Variable out_of_range : Qc -> res nat.
  (** find_stitch_homography of the call for image number [i] (its generator is seeded from the clock: any answer) *)
  Variable find : nat -> image (list Z) -> image (list Z) -> res (matrix Qcfield).
  (** the orders of the loops of the call of create_stitched_image for image number [i] *)
  Variables sg1 sg2 : nat -> nat -> nat -> list (nat * nat).

  (** 8317-8332  imstitch *)
  Definition imstitch (img1 img2 : image (list Z)) : res (image (list Z)) :=
    let* H := find 1 img1 img2 in create_stitched_image eps inv_eps interp out_of_range (sg1 1) (sg2 1) img1 img2 H.

  (** 8361-8388  the loop of stitch_sequential *)
  Fixpoint stitch_loop (i : nat) (panorama : image (list Z)) (images : list (image (list Z))) : res (image (list Z)) :=
    match images with
    | [] => Ok panorama
    | next_image :: rest =>
        let* H := find i panorama next_image in
        if mat_empty H then Ok panorama
        else
          let* next_panorama := create_stitched_image eps inv_eps interp out_of_range (sg1 i) (sg2 i) panorama next_image H in
          let* w := get_width next_panorama in
          if w =? 0 then Ok panorama else stitch_loop (S i) next_panorama rest
    end.
  (** 8334-8391  stitch_sequential *)
  Definition stitch_sequential (images : list (image (list Z))) : res (image (list Z)) :=
    match images with
    | [] => Ok (mkImage [] [])
    | [first] => Ok first
    | first :: rest => stitch_loop 1 first rest
    end.
End Sequence.

(** static_cast<long> of a std::size_t *)
Definition to_long (n : nat) : Z := let z := Z.of_nat n in if (z <? 2 ^ 63)%Z then z else (z - two64)%Z.

(** 2353-2365  copyResizeBicubic of an RGB picture: the three planes *)
Definition resize_rgb (s : nat -> list nat) (sg : nat -> nat -> list (nat * nat)) (im : image (list Z)) (width height : nat) : res (image (list Z)) :=
  apply_each3 s 0%Z [0; 0; 0]%Z (fun p => copyResizeBicubic cubic_z (polate_fin 0 255) 0%Z sg p width height) im.

(** 8302-8312  one match: a line and two discs; [fuel] bounds the steps of the line *)
Definition draw_match (fuel : nat) (sg : nat -> nat -> list (nat * nat)) (keypoints1 keypoints2 : list point) (w1 : nat) (m : nat * nat) (colour : list Z)
  (canvas : image (list Z)) : option (res (image (list Z))) :=
  match (let* p1 := vget keypoints1 (fst m) in let* k2 := vget keypoints2 (snd m) in Ok (p1, (uadd (fst k2) w1, snd k2))) with
  | Ok (p1, p2) =>
      match draw_line fuel canvas (to_long (fst p1)) (to_long (snd p1)) (to_long (fst p2)) (to_long (snd p2)) colour with
      | Some r => Some (let* canvas := r in
                        let* canvas := draw_point sg canvas (fst p1) (snd p1) colour 5 in
                        draw_point sg canvas (fst p2) (snd p2) colour 5)
      | None => None
      end
  | Throw e => Some (Throw e)
  | UB => Some UB
  end.
(** the colours are random: one for each match *)
Fixpoint draw_each (fuel : nat) sg keypoints1 keypoints2 w1 (matches : list ((nat * nat) * list Z)) (canvas : image (list Z)) : option (res (image (list Z))) :=
  match matches with
  | [] => Some (Ok canvas)
  | (m, colour) :: rest =>
      match draw_match fuel sg keypoints1 keypoints2 w1 m colour canvas with
      | Some (Ok canvas) => draw_each fuel sg keypoints1 keypoints2 w1 rest canvas
      | r => r
      end
  end.
(** 8283-8315  draw_matches *)
Definition draw_matches (fuel : nat) s sg (img1 img2 : image (list Z)) (keypoints1 keypoints2 : list point) (matches : list ((nat * nat) * list Z))
  : option (res (image (list Z))) :=
  match (let* h1 := get_height img1 in let* h2 := get_height img2 in
         let* w1 := get_width img1 in let* resized_img1 := resize_rgb s sg img1 w1 (Nat.max h1 h2) in
         let* w2 := get_width img2 in let* resized_img2 := resize_rgb s sg img2 w2 (Nat.max h1 h2) in
         let* canvas := concat_horizontal2 [0; 0; 0]%Z resized_img1 resized_img2 in
         let* w := get_width resized_img1 in Ok (canvas, w)) with
  | Ok (canvas, w) => draw_each fuel sg keypoints1 keypoints2 w matches canvas
  | Throw e => Some (Throw e)
  | UB => Some UB
  end.
