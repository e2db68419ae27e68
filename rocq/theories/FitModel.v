(** FitModel.v - estimate_gaussian_parameters_2d (the Levenberg-Marquardt fit of a Gaussian), gaussianFigure2D of a set of
    parameters, gaussianFigure3D; image_operations.h.

    Doubles are real numbers: no rounding, no NaN, no infinities, the literals are exact decimals.  The picture holds
    doubles; the other arithmetic element types are converted to double by the code and are not modelled.  The reductions
    (std::transform_reduce with a policy, the OpenMP reduction) may combine in any order and grouping ([reduces]), so the
    fit is a relation between its input and its results. *)
From Coq Require Import Reals.
From Verif Require Import Base ImageModel IndexModel GeomModel PixelModel HistModel NestedModel OField LinModel GaussModel.
Open Scope nat_scope.

(** 2840-2864  GaussianParameters2D *)
Record gparams : Type := mkGP { g_amp : R; g_x0 : R; g_y0 : R; g_sx : R; g_sy : R; g_rho : R }.

(** 2927-2963  LMAccumulator: the squared error, the 6 x 6 matrix and the right-hand side; operator+ adds them entry by entry *)
Record accum : Type := mkAcc { a_sse : R; a_H : list (list R); a_g : list R }.
Definition zip2 {A B C} (f : A -> B -> C) (l : list A) (m : list B) : list C :=
  map (fun ab => f (fst ab) (snd ab)) (combine l m).
Definition acc0 : accum := mkAcc 0%R (repeat (repeat 0%R 6) 6) (repeat 0%R 6).
Definition acc_add (a b : accum) : accum :=
  mkAcc (a_sse a + a_sse b)%R (zip2 (zip2 Rplus) (a_H a) (a_H b)) (zip2 Rplus (a_g a) (a_g b)).

(** 2965-3018  LMMapper: one pixel; J holds the derivatives of the fitted function *)
Definition lm_map (im : image R) (p : gparams) (idx : nat) : res accum :=
  let* width := get_width im in
  let* z := vget (pix im) idx in
  let dx := (INR (idx mod width) - g_x0 p)%R in
  let dy := (INR (idx / width) - g_y0 p)%R in
  let sx := g_sx p in let sy := g_sy p in let rho := g_rho p in
  let W := (1 / (1 - rho * rho))%R in
  let Z_eq := ((dx * dx) / (sx * sx) - (2 * rho * dx * dy) / (sx * sy) + (dy * dy) / (sy * sy))%R in
  let exp_term := exp (- (1 / 2) * W * Z_eq) in
  let f_val := (g_amp p * exp_term)%R in
  let r := (z - f_val)%R in
  let J := [exp_term;
            (f_val * W * ((dx / (sx * sx)) - (rho * dy) / (sx * sy)))%R;
            (f_val * W * ((dy / (sy * sy)) - (rho * dx) / (sx * sy)))%R;
            (f_val * W * (((dx * dx) / (sx * sx * sx)) - (rho * dx * dy) / (sx * sx * sy)))%R;
            (f_val * W * (((dy * dy) / (sy * sy * sy)) - (rho * dx * dy) / (sx * sy * sy)))%R;
            (f_val * W * (((dx * dy) / (sx * sy)) - rho * W * Z_eq))%R] in
  Ok (mkAcc (r * r) (map (fun a => map (fun b => (a * b)%R) J) J) (map (fun a => (a * r)%R) J)).

(** 3030-3057  SSEMapper: the squared error of one pixel *)
Definition sse_map (im : image R) (p : gparams) (idx : nat) : res R :=
  let* width := get_width im in
  let* z := vget (pix im) idx in
  let dx := (INR (idx mod width) - g_x0 p)%R in
  let dy := (INR (idx / width) - g_y0 p)%R in
  let sx := g_sx p in let sy := g_sy p in let rho := g_rho p in
  let W := (1 / (1 - rho * rho))%R in
  let Z_eq := ((dx * dx) / (sx * sx) - (2 * rho * dx * dy) / (sx * sy) + (dy * dy) / (sy * sy))%R in
  let f_val := (g_amp p * exp (- (1 / 2) * W * Z_eq))%R in
  let r := (z - f_val)%R in
  Ok (r * r)%R.

(** 3224-3231, 3284-3291  std::transform_reduce over the pixel indices *)
Definition lm_acc (im : image R) (p : gparams) (acc : accum) : Prop :=
  transform_reduces acc_add acc0 (fun i a => lm_map im p i = Ok a) (seq 0 (count im)) acc.
Definition lm_sse (im : image R) (p : gparams) (e : R) : Prop :=
  transform_reduces Rplus 0%R (fun i a => sse_map im p i = Ok a) (seq 0 (count im)) e.

(** 3234-3270  the damped, scaled system and its solution; the threshold of solve_linear_system is its default *)
Definition lm_scale (H : list (list R)) : list R :=
  map (fun i => let s := sqrt (Rabs (nth i (nth i H []) 0%R)) in
                if rltb s (/ 10 ^ 12)%R then 1%R else s) (seq 0 6).
Definition lm_delta (acc : accum) (lambda : R) : res (list R) :=
  let scale := lm_scale (a_H acc) in
  let s i := nth i scale 0%R in
  let g_scaled := map (fun i => (nth i (a_g acc) 0 / s i)%R) (seq 0 6) in
  let H_scaled := map (fun i => map (fun j =>
    (nth j (nth i (a_H acc) []) 0 / (s i * s j) + (if i =? j then lambda else 0))%R) (seq 0 6)) (seq 0 6) in
  let* delta_scaled := solve_linear_system Rfield ((/ 10 ^ 12)%R : Rfield) 6 H_scaled g_scaled in
  Ok (map (fun i => (nth i delta_scaled 0 / s i)%R) (seq 0 6)).

(** 3273-3274  std::inner_product of delta with itself *)
Definition squared_size (d : list R) : R := fold_left (fun s x => (s + x * x)%R) d 0%R.

(** 3279-3289  the parameters tried next *)
Definition lm_try (p : gparams) (d : list R) : gparams :=
  let del i := nth i d 0%R in
  mkGP (g_amp p + del 0) (g_x0 p + del 1) (g_y0 p + del 2)
       (Rmax (/ 10 ^ 6) (Rabs (g_sx p + del 3))) (Rmax (/ 10 ^ 6) (Rabs (g_sy p + del 4)))
       (Rmax (- (999 / 1000)) (Rmin (999 / 1000) (g_rho p + del 5))).

(** 3215-3313  the iterations; [n] is the number left *)
Fixpoint lm_loop (im : image R) (tolerance : R) (n : nat) (p : gparams) (lambda : R) (r : res gparams) : Prop :=
  match n with
  | O => r = Ok p
  | S n' =>
      exists acc d, lm_acc im p acc /\ lm_delta acc lambda = Ok d /\
        if rltb (squared_size d) tolerance then r = Ok p
        else exists new_sse, lm_sse im (lm_try p d) new_sse /\
               if rltb new_sse (a_sse acc) then lm_loop im tolerance n' (lm_try p d) (lambda / 10) r
               else lm_loop im tolerance n' p (lambda * 10) r
  end.

(** 3157-3164  std::max_element: the first greatest; the end of an empty range is dereferenced (3166) *)
Definition brightest (im : image R) : res nat :=
  if count im =? 0 then UB
  else for_list (seq 1 (count im - 1)) (fun i m =>
    let* a := vget (pix im) m in
    let* b := vget (pix im) i in
    Ok (if rltb a b then i else m)) 0.

(** 3176-3192  the moments: the pixels brighter than a tenth of the brightest, weighted by their values *)
Definition bright (im : image R) (A : R) : list nat :=
  filter (fun i => rltb (A * (1 / 10)) (nth i (pix im) 0%R)) (seq 0 (count im)).
Definition moment (im : image R) (A : R) (weight : nat -> R) (m : R) : Prop :=
  reduces Rplus (0%R :: map (fun i => (weight i * nth i (pix im) 0)%R) (bright im A)) m.

(** 3166-3205  the initial guess *)
Definition first_guess (im : image R) (r : res gparams) : Prop :=
  match brightest im, get_width im with
  | Ok m, Ok width =>
      let A := nth m (pix im) 0%R in
      let x0 := INR (m mod width) in
      let y0 := INR (m / width) in
      let dx i := (INR (i mod width) - x0)%R in
      let dy i := (INR (i / width) - y0)%R in
      exists sum_z sxx syy sxy,
        moment im A (fun _ => 1%R) sum_z /\ moment im A (fun i => dx i * dx i)%R sxx /\
        moment im A (fun i => dy i * dy i)%R syy /\ moment im A (fun i => dx i * dy i)%R sxy /\
        let sigma_x := Rmax (/ 10 ^ 6) (if rltb 0 sum_z then sqrt (sxx / sum_z) else 10)%R in
        let sigma_y := Rmax (/ 10 ^ 6) (if rltb 0 sum_z then sqrt (syy / sum_z) else 10)%R in
        let rho := (if rltb 0 sum_z then (sxy / sum_z) / (sigma_x * sigma_y) else 0)%R in
        r = Ok (mkGP A x0 y0 sigma_x sigma_y (Rmax (- (99 / 100)) (Rmin (99 / 100) rho)))
  | Ok _, e => r = match e with Throw t => Throw t | _ => UB end
  | Throw t, _ => r = Throw t
  | UB, _ => r = UB
  end.

(** 3128-3316  estimate_gaussian_parameters_2d *)
Definition estimate (im : image R) (max_iterations : nat) (tolerance : R) (r : res gparams) : Prop :=
  if negb (get_dimensionality im =? 2) then r = Throw InvalidArgument
  else exists g, first_guess im g /\
         match g with
         | Ok p => lm_loop im tolerance max_iterations p (1 / 100)%R r
         | Throw t => r = Throw t
         | UB => r = UB
         end.

(** 2866-2908, 2910-2925  gaussianFigure2D of a set of parameters; [s]: the order of the rows *)
Definition figure_of (s : nat -> list nat) (xsize ysize : nat) (p : gparams) (factor : R) : res (image R) :=
  let sigma1_2 := (g_sx p * g_sx p)%R in
  let sigma2_2 := (g_sy p * g_sy p)%R in
  let normalize_factor := (factor / (2 * PI * g_sx p * g_sy p * sqrt (1 - g_rho p ^ 2)))%R in
  let exp_para := (- (1) / (2 * sigma1_2 * sigma2_2 * (1 - g_rho p ^ 2)))%R in
  for_list (s ysize) (fun y o =>
    let x2 := (INR y - g_y0 p)%R in
    for_range xsize (fun x o =>
      let x1 := (INR x - g_x0 p)%R in
      at_set o [x; y] (normalize_factor *
        exp (exp_para * (sigma2_2 * (x1 * x1) - 2 * g_rho p * g_sx p * g_sy p * x1 * x2 + sigma1_2 * (x2 * x2))))%R) o)
    (image_sizes 0%R [xsize; ysize]).

(** 2814-2838  gaussianFigure3D *)
Definition gaussian_figure3d (xsize ysize zsize centerx centery centerz : nat) (sdx sdy sdz : R) : res (image R) :=
  let* plane := gaussian_figure2d xsize ysize centerx centery sdx sdy false in
  for_range zsize (fun z o =>
    let* each_plane := multiplies_scalar Rmult 0%R (normal1d (INR z - INR centerz) sdz) plane in
    for_range ysize (fun y o => for_range xsize (fun x o =>
      let* v := atu each_plane [x; y] in
      atu_set o [x; y; z] v) o) o) (image_sizes 0%R [xsize; ysize; zsize]).
