(** HomModel.v - image_operations.h: compute_homography, find_homography_robust, refine_homography, scale_homography,
    warp_perspective, create_stitched_image.  Floating point is an ordered field [K] (exact); [eps] is
    std::numeric_limits<FloatingType>::epsilon() and [big] its max(). *)
From Coq Require Import QArith Qcanon Qround.
From Verif Require Import Base ImageModel PixelModel OField LinModel InterpModel.
Open Scope nat_scope.

Section Hom.
  Variable K : ofield.
  Variables eps big : K.
  Open Scope field_scope.

  (** Point<2>: two std::size_t *)
  Definition point := (nat * nat)%type.
  (** static_cast<FloatingType> of a std::size_t *)
  Fixpoint fnat (n : nat) : K := match n with O => 0 | S n => fnat n + 1 end.

  (** A.at(row, 0) = ...; ... A.at(row, n - 1) = ... *)
  Definition mat_set_row (m : matrix K) (row : nat) (vs : list K) : res (matrix K) :=
    for_list (combine (seq 0 (length vs)) vs) (fun cv m => mat_set m row (fst cv) (snd cv)) m.

  (** 7494-7527  the matrix of the linear system *)
  Definition dlt_matrix (points : list (point * point)) : res (matrix K) :=
    for_range (length points) (fun i A =>
      let* pq := vget points i in
      let x1 := fnat (fst (fst pq)) in
      let y1 := fnat (snd (fst pq)) in
      let x2 := fnat (fst (snd pq)) in
      let y2 := fnat (snd (snd pq)) in
      let* A := mat_set_row A (2 * i) [- x1; - y1; - (1); 0; 0; 0; x2 * x1; x2 * y1; x2] in
      mat_set_row A (2 * i + 1) [0; 0; 0; - x1; - y1; - (1); y2 * x1; y2 * y1; y2]) (mat_new 0 (2 * length points)%nat 9).

  (** 7486-7548  compute_homography: the result and the new value of H; [solve] is linalg::svd_solve_ah_zero *)
  Variable solve : matrix K -> res (list K).
  Definition compute_homography (points : list (point * point)) (H : matrix K) : res (bool * matrix K) :=
    if (length points <? 4)%nat then Ok (false, H)
    else
      let* A := dlt_matrix points in
      let* h := solve A in
      if (length h =? 0)%nat || negb (length h =? 9)%nat then Ok (false, H)
      else
        let H := mat_new (0 : K) 3 3 in
        let* scale := vget h 8 in
        if fabs scale <? eps then Ok (false, H)
        else
          let* H := for_range 3 (fun i H => for_range 3 (fun j H =>
            let* v := vget h (i * 3 + j) in mat_set H i j (v / scale)) H) H in
          Ok (true, H).

  (** the three linear forms of a 3 x 3 matrix at (x, y): numerators and denominator *)
  Definition linear_form (H : matrix K) (r : nat) (x y : K) : res K :=
    let* a := mat_at H r 0 in let* b := mat_at H r 1 in let* c := mat_at H r 2 in Ok (a * x + b * y + c).

  (** 7620-7645  squared reprojection error of one match, [threshold_sq] when the denominator vanishes *)
  Definition reproject (H : matrix K) (threshold_sq : K) (p1 p2 : point) : res K :=
    let p1x := fnat (fst p1) in let p1y := fnat (snd p1) in
    let p2x := fnat (fst p2) in let p2y := fnat (snd p2) in
    let* w := linear_form H 2 p1x p1y in
    if fabs w <? eps then Ok threshold_sq
    else
      let* nx := linear_form H 0 p1x p1y in
      let* ny := linear_form H 1 p1x p1y in
      let dx := nx / w - p2x in
      let dy := ny / w - p2y in
      Ok (dx * dx + dy * dy).

  (** 7554-7572  RansacScorer, MsacScorer *)
  Definition ransac_scorer (dist_sq threshold_sq : K) : K := if dist_sq <? threshold_sq then 0 else 1.
  Definition msac_scorer (dist_sq threshold_sq : K) : K := if threshold_sq <? dist_sq then threshold_sq else dist_sq.

  Section Robust.
    Variable scorer : K -> K -> K.
    Variables (keypoints1 keypoints2 : list point) (matches : list (nat * nat)) (threshold_sq : K).

    (** 7607-7610, 7616-7617  keypoints1[match.first], keypoints2[match.second] *)
    Definition match_points (m : nat * nat) : res (point * point) :=
      let* p1 := vget keypoints1 (fst m) in let* p2 := vget keypoints2 (snd m) in Ok (p1, p2).

    (** 7614-7646 *)
    Definition model_cost (H : matrix K) : res K :=
      for_list matches (fun m cost =>
        let* pq := match_points m in
        let* d := reproject H threshold_sq (fst pq) (snd pq) in
        Ok (cost + scorer d threshold_sq)) 0.

    (** 7596-7604  four different indices; [draws] are the values dist(rng) will give; None: more draws are needed *)
    Fixpoint draw_four (indices draws : list nat) : option (list nat * list nat) :=
      if (length indices <? 4)%nat then
        match draws with
        | [] => None
        | d :: draws => draw_four (if existsb (Nat.eqb d) indices then indices else indices ++ [d]) draws
        end
      else Some (indices, draws).

    (** 7589-7652  one iteration for the sample [indices] *)
    Definition try_sample (indices : list nat) (st : matrix K * K) : res (matrix K * K) :=
      let '(best_H, min_cost) := st in
      let* sample_points := mapM (fun idx => let* m := vget matches idx in match_points m) indices in
      let* r := compute_homography sample_points (mat_new 0 3 3) in
      let '(ok, H_candidate) := r in
      if negb ok then Ok st
      else
        let* current_cost := model_cost H_candidate in
        Ok (if current_cost <? min_cost then (H_candidate, current_cost) else st).

    (** 7589-7653  the loop *)
    Fixpoint robust_loop (iterations : nat) (draws : list nat) (st : matrix K * K) : option (res (matrix K * K)) :=
      match iterations with
      | O => Some (Ok st)
      | S n =>
          if (length matches <? 4)%nat then robust_loop n draws st
          else
            match draw_four [] draws with
            | None => None
            | Some (indices, draws) =>
                match try_sample indices st with
                | Ok st => robust_loop n draws st
                | e => Some e
                end
            end
      end.
  End Robust.

  (** 7579-7656  find_homography_robust_impl; 7671-7699 chooses the scorer *)
  Definition find_homography_robust scorer (keypoints1 keypoints2 : list point) (matches : list (nat * nat))
    (draws : list nat) (iterations : Z) (inlier_threshold : K) : option (res (matrix K)) :=
    match robust_loop scorer keypoints1 keypoints2 matches (inlier_threshold * inlier_threshold) (Z.to_nat iterations) draws
            (mat_new 0 3 3, big) with
    | None => None
    | Some r => Some (let* st := r in Ok (fst st))
    end.

  (** 7702-7760  refine_homography *)
  Definition refine_homography (keypoints1 keypoints2 : list point) (matches : list (nat * nat)) (initial_H : matrix K)
    (inlier_threshold : K) : res (matrix K) :=
    if mat_empty initial_H then Ok initial_H
    else
      let* all_inliers := for_list matches (fun m inliers =>
        let* pq := match_points keypoints1 keypoints2 m in
        let p1 := fst pq in let p2 := snd pq in
        let p1x := fnat (fst p1) in let p1y := fnat (snd p1) in
        let p2x := fnat (fst p2) in let p2y := fnat (snd p2) in
        let* w := linear_form initial_H 2 p1x p1y in
        if fabs w <? eps then Ok inliers
        else
          let* nx := linear_form initial_H 0 p1x p1y in
          let* ny := linear_form initial_H 1 p1x p1y in
          let dx := nx / w - p2x in
          let dy := ny / w - p2y in
          Ok (if dx * dx + dy * dy <? inlier_threshold * inlier_threshold then inliers ++ [(p1, p2)] else inliers)) [] in
      if (length all_inliers <? 4)%nat then Ok initial_H
      else
        let* r := compute_homography all_inliers (mat_new 0 3 3) in
        let '(ok, refined_H) := r in
        Ok (if ok : bool then refined_H else initial_H).

  (** 7766-7789  scale_homography; a size of zero divides by zero *)
  Definition scale_homography (H : matrix K) (w1_full h1_full w1_small h1_small w2_full h2_full w2_small h2_small : nat) : res (matrix K) :=
    let S1 := mat_new (0 : K) 3 3 in
    let* S1 := mat_set S1 0 0 (fnat w1_full / fnat w1_small) in
    let* S1 := mat_set S1 1 1 (fnat h1_full / fnat h1_small) in
    let* S1 := mat_set S1 2 2 1 in
    let S2_inv := mat_new (0 : K) 3 3 in
    let* S2_inv := mat_set S2_inv 0 0 (fnat w2_small / fnat w2_full) in
    let* S2_inv := mat_set S2_inv 1 1 (fnat h2_small / fnat h2_full) in
    let* S2_inv := mat_set S2_inv 2 2 1 in
    let* temp := multiply 0 fadd fmul S2_inv H in
    multiply 0 fadd fmul temp S1.

  Section Warp.
    (** [interp] is the interpolator, [d] the value-initialised element, [inv_eps] the threshold of linalg::invert *)
    Context {A : Type} (d : A) (interp : image A -> K -> K -> res A) (inv_eps : K).

    (** 7804-7852  warp_perspective; pixels in the order [sg] *)
    Definition warp_perspective sg (src : image A) (H : matrix K) (out_width out_height : nat) : res (image A) :=
      let warped := image_sizes d [out_width; out_height] in
      if mat_empty H then Ok warped
      else
        for_list (sg out_height out_width) (fun p warped =>
          let '(y, x) := p in
          let* w := linear_form H 2 (fnat x) (fnat y) in
          if fabs w <? eps then Ok warped
          else
            let* nx := linear_form H 0 (fnat x) (fnat y) in
            let* ny := linear_form H 1 (fnat x) (fnat y) in
            let* v := interp src (nx / w) (ny / w) in
            at_set warped [x; y] v) warped.

    (** 7854-7910  warp_perspective with a policy: the matrix is inverted first; pixels in the order [s] *)
    Definition warp_perspective_policy (s : nat -> list nat) (src : image A) (H : matrix K) (out_width out_height : nat) : res (image A) :=
      let warped := image_sizes d [out_width; out_height] in
      if mat_empty H then Ok warped
      else
        let* H_inv := invert K inv_eps H in
        if mat_empty H_inv then Ok warped
        else
          for_list (s (out_width * out_height)%nat) (fun idx warped =>
            let y := (idx / out_width)%nat in
            let x := (idx mod out_width)%nat in
            let* w := linear_form H_inv 2 (fnat x) (fnat y) in
            if eps <? fabs w then
              let* nx := linear_form H_inv 0 (fnat x) (fnat y) in
              let* ny := linear_form H_inv 1 (fnat x) (fnat y) in
              let* v := interp src (nx / w) (ny / w) in
              at_set warped [x; y] v
            else Ok warped) warped.
  End Warp.
End Hom.

(** ** create_stitched_image: FloatingType is the rational numbers, a pixel is the list of its three channels *)
Section Stitch.
  Variables eps inv_eps : Qcfield.
  Variable interp : image (list Z) -> Qcfield -> Qcfield -> res (list Z).
  (** the value of a conversion to std::size_t that is out of range: undefined by the standard, some number on a machine *)
  Variable out_of_range : Qc -> res nat.

  (** static_cast<std::size_t> of a floating value *)
  Definition cast_size (q : Qc) : res nat :=
    let t := trunc (this q) in
    if (0 <=? t)%Z && (t <? two64)%Z then Ok (Z.to_nat t) else out_of_range q.

  Definition rgb0 : list Z := [0; 0; 0]%Z.
  Notation fn := (fnat Qcfield).
  Notation "a <?? b" := (@fltb Qcfield a b) (at level 70).

  (** 8083-8102  the bounds (min_x, max_x, min_y, max_y) of image 1 and of the corners of image 2 under H; a corner with
      denominator zero gives an infinity or a NaN, modelled as undefined *)
  Definition canvas_bounds (H : matrix Qcfield) (w1 h1 w2 h2 : nat) : res (Qc * Qc * Qc * Qc) :=
    let w2f := fn w2 in let h2f := fn h2 in
    let* r := cast_size (w2f - 1)%Qc in
    let* b := cast_size (h2f - 1)%Qc in
    for_list [(0, 0); (r, 0); (0, b); (r, b)] (fun (p : nat * nat) (bd : Qc * Qc * Qc * Qc) =>
      let '(min_x, max_x, min_y, max_y) := bd in
      let px := fn (fst p) in let py := fn (snd p) in
      let* w := linear_form Qcfield H 2 px py in
      if Qc_eq_bool w 0 then UB
      else
        let* nx := linear_form Qcfield H 0 px py in
        let* ny := linear_form Qcfield H 1 px py in
        let x := (nx / w)%Qc in let y := (ny / w)%Qc in
        Ok (if x <?? min_x then x else min_x, if max_x <?? x then x else max_x,
            if y <?? min_y then y else min_y, if max_y <?? y then y else max_y)) (Q2Qc 0, fn w1 : Qc, Q2Qc 0, fn h1 : Qc).

  (** 8109-8112  the translation *)
  Definition translation (tx ty : Qc) : res (matrix Qcfield) :=
    let m := mat_new (Q2Qc 0 : Qcfield) 3 3 in
    let* m := mat_set m 0 0 (Q2Qc 1 : Qcfield) in let* m := mat_set m 0 1 (Q2Qc 0 : Qcfield) in let* m := mat_set m 0 2 (tx : Qcfield) in
    let* m := mat_set m 1 0 (Q2Qc 0 : Qcfield) in let* m := mat_set m 1 1 (Q2Qc 1 : Qcfield) in let* m := mat_set m 1 2 (ty : Qcfield) in
    let* m := mat_set m 2 0 (Q2Qc 0 : Qcfield) in let* m := mat_set m 2 1 (Q2Qc 0 : Qcfield) in mat_set m 2 2 (Q2Qc 1 : Qcfield).

  (** static_cast<std::uint8_t>(a * (1.0 - alpha) + b * alpha) *)
  Definition blend (alpha : Qc) (a b : Z) : res Z :=
    let t := trunc (this (Q2Qc (inject_Z a) * (1 - alpha) + Q2Qc (inject_Z b) * alpha)%Qc) in
    if (0 <=? t)%Z && (t <=? 255)%Z then Ok t else UB.

  (** 8133-8161  one pixel of the output; None: not written *)
  Definition stitch_pixel (img1 warped : image (list Z)) (w1 h1 : nat) (tx ty : Qc) (x y : nat) : res (option (list Z)) :=
    let* img1_start_x := cast_size tx in
    let* img1_end_x := cast_size (tx + fn w1)%Qc in
    let* pw := at_ warped [x; y] in
    let* c0 := vget pw 0 in let* c1 := vget pw 1 in let* c2 := vget pw 2 in
    let warped_has_content := (5 <? c0)%Z || (5 <? c1)%Z || (5 <? c2)%Z in
    let* px := cast_size (fn x - tx)%Qc in
    let* py := cast_size (fn y - ty)%Qc in
    let* top := cast_size ty in
    let* bottom := cast_size (ty + fn h1)%Qc in
    let p1_has_content := (img1_start_x <=? x) && (x <? img1_end_x) && (top <=? y) && (y <? bottom) in
    if p1_has_content && warped_has_content then
      let* p1 := at_ img1 [px; py] in
      let alpha := (fn px / fn w1)%Qc in
      let* a0 := vget p1 0 in let* a1 := vget p1 1 in let* a2 := vget p1 2 in
      let* b0 := blend alpha a0 c0 in let* b1 := blend alpha a1 c1 in let* b2 := blend alpha a2 c2 in
      Ok (Some [b0; b1; b2])
    else if p1_has_content then let* p1 := at_ img1 [px; py] in Ok (Some p1)
    else if warped_has_content then Ok (Some pw)
    else Ok None.

  Definition write_pixel (out : image (list Z)) (x y : nat) (o : option (list Z)) : res (image (list Z)) :=
    match o with Some v => at_set out [x; y] v | None => Ok out end.

  (** 8063-8166  create_stitched_image; [sg1], [sg2] are the orders of the two loops *)
  Definition create_stitched_image sg1 sg2 (img1 img2 : image (list Z)) (H_in : matrix Qcfield) : res (image (list Z)) :=
    if mat_empty H_in then Ok (mkImage [] [])
    else
      let* H := invert Qcfield inv_eps H_in in
      if mat_empty H then Ok (mkImage [] [])
      else
        let* w2 := get_width img2 in let* h2 := get_height img2 in
        let* w1 := get_width img1 in let* h1 := get_height img1 in
        let* bd := canvas_bounds H w1 h1 w2 h2 in
        let '(min_x, max_x, min_y, max_y) := bd in
        let tx := (- min_x)%Qc in let ty := (- min_y)%Qc in
        let* ow := cast_size (Q2Qc (inject_Z (Qceiling (this (max_x - min_x)%Qc)))) in
        let* oh := cast_size (Q2Qc (inject_Z (Qceiling (this (max_y - min_y)%Qc)))) in
        let* H_trans := translation tx ty in
        let* H_final := multiply (@f0 Qcfield) fadd fmul H_trans H_in in
        let* warped := warp_perspective Qcfield eps rgb0 interp sg1 img2 H_final ow oh in
        for_list (sg2 oh ow) (fun p out =>
          let '(y, x) := p in
          let* o := stitch_pixel img1 warped w1 h1 tx ty x y in write_pixel out x y o) (image_sizes rgb0 [ow; oh]).

  (** 8168-8281  create_stitched_image with a policy *)
  Definition create_stitched_image_policy s1 s2 (img1 img2 : image (list Z)) (H_in : matrix Qcfield) : res (image (list Z)) :=
    if mat_empty H_in then Ok (mkImage [] [])
    else
      let* H := invert Qcfield inv_eps H_in in
      if mat_empty H then Ok (mkImage [] [])
      else
        let* w2 := get_width img2 in let* h2 := get_height img2 in
        let* w1 := get_width img1 in let* h1 := get_height img1 in
        let* bd := canvas_bounds H w1 h1 w2 h2 in
        let '(min_x, max_x, min_y, max_y) := bd in
        let tx := (- min_x)%Qc in let ty := (- min_y)%Qc in
        let* ow := cast_size (Q2Qc (inject_Z (Qceiling (this (max_x - min_x)%Qc)))) in
        let* oh := cast_size (Q2Qc (inject_Z (Qceiling (this (max_y - min_y)%Qc)))) in
        let* H_trans := translation tx ty in
        let* H_final := multiply (@f0 Qcfield) fadd fmul H_trans H in
        let* warped := warp_perspective_policy Qcfield eps rgb0 interp inv_eps s1 img2 H_final ow oh in
        for_list (s2 (ow * oh)) (fun idx out =>
          let y := idx / ow in
          let x := idx mod ow in
          let* o := stitch_pixel img1 warped w1 h1 tx ty x y in write_pixel out x y o) (image_sizes rgb0 [ow; oh]).
End Stitch.

(** 4896-4906  default_bicubic_interpolator of RGB: the three planes one after the other *)
Definition rgb_bicubic (im : image (list Z)) (x y : Qcfield) : res (list Z) :=
  mapM (fun i => let* p := get_plane seq0 0%Z im i in
    bicubic_interpolate inject_Z (fin_int 0 255) 0%Z p (this (x : Qc)) (this (y : Qc))) [0; 1; 2].
