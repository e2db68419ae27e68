(** JacobiModel.v - linear_algebra.h: jacobi_eigen_solver, svd_solve_ah_zero, over the real numbers. *)
From Coq Require Import Reals Lra.
From Verif Require Import Base OField LinModel.
Open Scope nat_scope.

(** std::atan2 without signed zeros *)
Definition atan2 (y x : R) : R :=
  (if rltb 0 x then atan (y / x)
   else if rltb x 0 then (if rltb y 0 then atan (y / x) - PI else atan (y / x) + PI)
   else if rltb 0 y then PI / 2 else if rltb y 0 then - (PI / 2) else 0)%R.

(** linear_algebra.h:160-173  the largest off-diagonal element *)
Definition jacobi_scan (n : nat) (D : matrix R) : res (R * (nat * nat)) :=
  for_range n (fun i st => for_list (seq (i + 1) (n - (i + 1))) (fun j st =>
    let* v := mat_at D i j in
    Ok (if rltb (fst st) (Rabs v) then (Rabs v, (i, j)) else st)) st) (0%R, (0, 1)).

(** linear_algebra.h:186-199  rotation of D *)
Definition jacobi_rotate_d (n p q : nat) (app aqq apq c s : R) (D : matrix R) : res (matrix R) :=
  let* D := mat_set D p p (c * c * app + s * s * aqq - 2 * s * c * apq)%R in
  let* D := mat_set D q q (s * s * app + c * c * aqq + 2 * s * c * apq)%R in
  let* D := mat_set D q p 0%R in
  let* D := mat_set D p q 0%R in
  for_range n (fun i D =>
    if negb (i =? p) && negb (i =? q) then
      let* aip := mat_at D i p in
      let* aiq := mat_at D i q in
      let* D := mat_set D p i (c * aip - s * aiq)%R in
      let* D := mat_set D i p (c * aip - s * aiq)%R in
      let* D := mat_set D q i (s * aip + c * aiq)%R in
      mat_set D i q (s * aip + c * aiq)%R
    else Ok D) D.

(** linear_algebra.h:202-208  rotation of the eigenvectors *)
Definition jacobi_rotate_e (n p q : nat) (c s : R) (E : matrix R) : res (matrix R) :=
  for_range n (fun i E =>
    let* e_ip := mat_at E i p in
    let* e_iq := mat_at E i q in
    let* E := mat_set E i p (c * e_ip - s * e_iq)%R in
    mat_set E i q (s * e_ip + c * e_iq)%R) E.

(** linear_algebra.h:134-217  jacobi_eigen_solver: eigenvalues and eigenvectors.  The third component of the loop
    state is the break at 175. *)
Definition jacobi_eigen_solver (A : matrix R) (max_iterations : Z) (tolerance : R) : res (list R * matrix R) :=
  if negb (rows A =? cols A) then Throw RuntimeError
  else
    let n := rows A in
    let* E := for_range n (fun i E => mat_set E i i 1%R) (mat_new 0%R n n) in
    let* st := for_range (Z.to_nat max_iterations) (fun _ (st : matrix R * matrix R * bool) =>
      let '(D, E, stop) := st in
      if stop then Ok st
      else
        let* mx := jacobi_scan n D in
        let '(max_val, (p, q)) := mx in
        if rltb max_val tolerance then Ok (D, E, true)
        else
          let* app := mat_at D p p in
          let* aqq := mat_at D q q in
          let* apq := mat_at D p q in
          let theta := (/ 2 * atan2 (2 * apq) (aqq - app))%R in
          let c := cos theta in
          let s := sin theta in
          let* D := jacobi_rotate_d n p q app aqq apq c s D in
          let* E := jacobi_rotate_e n p q c s E in
          Ok (D, E, false)) (A, E, false) in
    let '(D, E, _) := st in
    let* ev := for_range n (fun i ev => let* v := mat_at D i i in vset ev i v) (repeat 0%R n) in
    Ok (ev, E).

(** std::min_element: the first of the least elements *)
Definition min_index (l : list R) : nat :=
  fst (fold_left (fun (st : nat * nat) x => let '(best, i) := st in
    (if rltb x (nth best l 0%R) then i else best, S i)) l (0, 0)).

(** linear_algebra.h:224-248  svd_solve_ah_zero *)
Definition svd_solve_ah_zero (A : matrix R) : res (list R) :=
  let* A_T := transpose 0%R A in
  let* ATA := multiply 0%R Rplus Rmult A_T A in
  let* ee := jacobi_eigen_solver ATA 100 (/ 1000000000)%R in
  let '(eigenvalues, eigenvectors) := ee in
  let min_idx := min_index eigenvalues in
  for_range (cols A) (fun i h => let* v := mat_at eigenvectors i min_idx in vset h i v) (repeat 0%R (cols A)).
