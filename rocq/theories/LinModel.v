(** LinModel.v - linear_algebra.h, image_operations.h: is_symmetry, determinant3x3, solve_linear_system. *)
From Verif Require Import Base ImageModel OField.
Open Scope nat_scope.

(** linear_algebra.h:19-61  class Matrix.  rows * cols is assumed not to wrap. *)
Record matrix (A : Type) : Type := mkMatrix { rows : nat; cols : nat; data : list A }.
Arguments mkMatrix {A} _ _ _.
Arguments rows {A} _. Arguments cols {A} _. Arguments data {A} _.

Section Matrix.
  Context {A : Type}.
  (** 23, 25-28  constructors; [zero] is the value-initialised element *)
  Definition mat_default : matrix A := mkMatrix 0 0 [].
  Definition mat_new (zero : A) (r c : nat) : matrix A := mkMatrix r c (repeat zero (r * c)).
  (** 30-38  at: no check *)
  Definition mat_at (m : matrix A) (r c : nat) : res A := vget (data m) (r * cols m + c).
  Definition mat_set (m : matrix A) (r c : nat) (v : A) : res (matrix A) :=
    let* d := vset (data m) (r * cols m + c) v in Ok (mkMatrix (rows m) (cols m) d).
  (** 50-53  empty *)
  Definition mat_empty (m : matrix A) : bool := (rows m =? 0) || (cols m =? 0).
End Matrix.

Section Algebra.
  Context {A : Type} (zero : A) (add mul : A -> A -> A).

  (** linear_algebra.h:84-97  transpose *)
  Definition transpose (m : matrix A) : res (matrix A) :=
    for_range (rows m) (fun r t => for_range (cols m) (fun c t =>
      let* v := mat_at m r c in mat_set t c r v) t) (mat_new zero (cols m) (rows m)).

  (** linear_algebra.h:102-124  multiply *)
  Definition multiply (a b : matrix A) : res (matrix A) :=
    if negb (cols a =? rows b) then Throw RuntimeError
    else
      for_range (rows a) (fun i m => for_range (cols b) (fun j m =>
        let* sum := for_range (cols a) (fun k s =>
          let* x := mat_at a i k in
          let* y := mat_at b k j in
          Ok (add s (mul x y))) zero in
        mat_set m i j sum) m) (mat_new zero (rows a) (cols b)).

  (** linear_algebra.h:292-336  is_symmetry.  [differ]: val1 != val2 for integral and non-arithmetic types,
      abs(val1 - val2) > 1e-6 for floating point and complex *)
  Variable differ : A -> A -> bool.

  Definition symmetric_row (m : matrix A) (r : nat) : res bool :=
    for_list (seq (r + 1) (cols m - (r + 1))) (fun c ok =>
      if ok : bool then
        let* v1 := mat_at m r c in
        let* v2 := mat_at m c r in
        Ok (negb (differ v1 v2))
      else Ok false) true.

  Definition is_symmetry (m : matrix A) : res bool :=
    if negb (rows m =? cols m) then Ok false
    else for_range (rows m) (fun r ok => if ok : bool then symmetric_row m r else Ok false) true.

  (** linear_algebra.h:342-391  is_symmetry with a policy: any_of over the rows; [s] is the order in which the
      predicate is applied *)
  Definition is_symmetry_policy (s : nat -> list nat) (m : matrix A) : res bool :=
    if negb (rows m =? cols m) then Ok false
    else
      let* any := for_list (s (rows m)) (fun r any => let* ok := symmetric_row m r in Ok (any || negb ok)) false in
      Ok (negb any).

  (** image_operations.h:269-290  is_symmetry of an image *)
  Definition is_symmetry_image (im : image A) : res bool :=
    if negb (get_dimensionality im =? 2) then Throw RuntimeError
    else
      let* height := get_height im in
      let* width := get_width im in
      let* m := for_range height (fun r m => for_range width (fun c m =>
        let* v := atu im [c; r] in mat_set m r c v) m) (mat_new zero height width) in
      is_symmetry m.
End Algebra.

(** ** exact arithmetic in an ordered field *)
Section Field.
  Variable K : ofield.
  Open Scope field_scope.

  (** linear_algebra.h:262-264 *)
  Definition mat_det3 (m : matrix K) : res K :=
    let* a := mat_at m 0 0 in let* b := mat_at m 0 1 in let* c := mat_at m 0 2 in
    let* d := mat_at m 1 0 in let* e := mat_at m 1 1 in let* f := mat_at m 1 2 in
    let* g := mat_at m 2 0 in let* h := mat_at m 2 1 in let* i := mat_at m 2 2 in
    Ok (a * (e * i - h * f) - b * (d * i - f * g) + c * (d * h - e * g)).

  (** linear_algebra.h:254-286  invert; [eps] is 1e-9 *)
  Definition invert (eps : K) (m : matrix K) : res (matrix K) :=
    if negb (rows m =? 3)%nat || negb (cols m =? 3)%nat then Throw RuntimeError
    else
      let* det := mat_det3 m in
      if fabs det <? eps then Ok mat_default
      else
        let inv_det := 1 / det in
        let* a := mat_at m 0 0 in let* b := mat_at m 0 1 in let* c := mat_at m 0 2 in
        let* d := mat_at m 1 0 in let* e := mat_at m 1 1 in let* f := mat_at m 1 2 in
        let* g := mat_at m 2 0 in let* h := mat_at m 2 1 in let* i := mat_at m 2 2 in
        let r := mat_new (0 : K) 3 3 in
        let* r := mat_set r 0 0 ((e * i - h * f) * inv_det) in
        let* r := mat_set r 0 1 ((c * h - b * i) * inv_det) in
        let* r := mat_set r 0 2 ((b * f - c * e) * inv_det) in
        let* r := mat_set r 1 0 ((f * g - d * i) * inv_det) in
        let* r := mat_set r 1 1 ((a * i - c * g) * inv_det) in
        let* r := mat_set r 1 2 ((d * c - a * f) * inv_det) in
        let* r := mat_set r 2 0 ((d * h - g * e) * inv_det) in
        let* r := mat_set r 2 1 ((g * b - a * h) * inv_det) in
        mat_set r 2 2 ((a * e - d * b) * inv_det).

  (** image_operations.h:799-817  determinant3x3 *)
  Definition determinant3x3 (im : image K) : res K :=
    let* a := at_ im [0; 0]%nat in let* b := at_ im [1; 0]%nat in let* c := at_ im [2; 0]%nat in
    let* d := at_ im [0; 1]%nat in let* e := at_ im [1; 1]%nat in let* f := at_ im [2; 1]%nat in
    let* g := at_ im [0; 2]%nat in let* h := at_ im [1; 2]%nat in let* i := at_ im [2; 2]%nat in
    Ok (a * (e * i - f * h) - b * (d * i - f * g) + c * (d * h - e * g)).

  (** ** image_operations.h:3071-3126  solve_linear_system; a system is its rows and the right-hand side *)
  Notation system := (list (list K) * list K)%type.

  (** 3079-3088  the row with the greatest absolute value in column i *)
  Definition find_pivot (n : nat) (A : list (list K)) (i : nat) : res (nat * K) :=
    let* row := vget A i in
    let* aii := vget row i in
    for_list (seq (i + 1) (n - (i + 1))) (fun k mx =>
      let* row := vget A k in
      let* v := vget row i in
      Ok (if snd mx <? fabs v then (k, fabs v) else mx)) (i, fabs aii).

  (** 3096-3100  std::swap of rows and right-hand sides *)
  Definition vswap {B} (l : list B) (i j : nat) : res (list B) :=
    let* a := vget l i in
    let* b := vget l j in
    let* l := vset l i b in
    vset l j a.

  (** 3102-3110  elimination below row i *)
  Definition eliminate_row (n : nat) (i k : nat) (s : system) : res system :=
    let '(A, b) := s in
    let* rk := vget A k in
    let* aki := vget rk i in
    let* ri := vget A i in
    let* aii := vget ri i in
    let factor := aki / aii in
    let* rk := for_list (seq i (n - i)) (fun j rk =>
      let* x := vget rk j in
      let* y := vget ri j in
      vset rk j (x - factor * y)) rk in
    let* A := vset A k rk in
    let* bk := vget b k in
    let* bi := vget b i in
    let* b := vset b k (bk - factor * bi) in
    Ok (A, b).

  (** 3077-3111; [None]: the zero vector is returned early *)
  Definition forward (thr : K) (n : nat) (s : system) : res (option system) :=
    for_range n (fun i o =>
      match o with
      | None => Ok None
      | Some (A, b) =>
          let* pv := find_pivot n A i in
          let '(max_row, max_val) := pv in
          if max_val <? thr then Ok None
          else
            let* s := (if (max_row =? i)%nat then Ok (A, b)
                       else let* A := vswap A i max_row in let* b := vswap b i max_row in Ok (A, b)) in
            let* s := for_list (seq (i + 1) (n - (i + 1))) (eliminate_row n i) s in
            Ok (Some s)
      end) (Some s).

  (** 3113-3125  back substitution, i = n-1 .. 0 *)
  Definition back (n : nat) (A : list (list K)) (b : list K) : res (list K) :=
    for_list (rev (seq 0 n)) (fun i x =>
      let* row := vget A i in
      let* sum := for_list (seq (i + 1) (n - (i + 1))) (fun j s =>
        let* a := vget row j in
        let* v := vget x j in
        Ok (s + a * v)) 0 in
      let* bi := vget b i in
      let* aii := vget row i in
      vset x i ((bi - sum) / aii)) (repeat (0 : K) n).

  Definition solve_linear_system (thr : K) (n : nat) (A : list (list K)) (b : list K) : res (list K) :=
    let* o := forward thr n (A, b) in
    match o with
    | None => Ok (repeat (0 : K) n)
    | Some (A, b) => back n A b
    end.
End Field.
