(** ReduceModel.v - image_operations.h: sum, mean, min, max, minmax, count, replace, unique_value (4288-4433),
    manhattan_distance (3947-3969), euclidean_distance (3971-3978, 4156-4195), basic_functions.h: recursive_reduce (902-916),
    two_input_map_reduce (1477-1517). *)
From Coq Require Import QArith Reals.
From Verif Require Import Base ImageModel PixelModel HistModel InterpModel.
Open Scope nat_scope.

Section Extrema.
  Context {A : Type} (lt : A -> A -> bool).

  (** std::ranges::min of a vector: undefined on an empty one *)
  Definition vmin (l : list A) : res A :=
    match l with [] => UB | a :: r => Ok (fold_left (fun m x => if lt x m then x else m) r a) end.
  (** std::ranges::max *)
  Definition vmax (l : list A) : res A :=
    match l with [] => UB | a :: r => Ok (fold_left (fun m x => if lt m x then x else m) r a) end.
  (** std::ranges::minmax: two elements at a time *)
  Definition mm1 (b : A) (s : A * A) : A * A :=
    if lt b (fst s) then (b, snd s) else if lt b (snd s) then s else (fst s, b).
  Definition mm2 (b c : A) (s : A * A) : A * A :=
    let '(lo, hi) := if lt c b then (c, b) else (b, c) in
    (if lt lo (fst s) then lo else fst s, if lt hi (snd s) then snd s else hi).
  Fixpoint mm_loop (l : list A) (s : A * A) : A * A :=
    match l with
    | [] => s
    | [b] => mm1 b s
    | b :: c :: r => mm_loop r (mm2 b c s)
    end.
  Definition vminmax (l : list A) : res (A * A) :=
    match l with
    | [] => UB
    | [a] => Ok (a, a)
    | a :: b :: r => Ok (mm_loop r (if lt b a then (b, a) else (a, b)))
    end.

  (** 4324-4329  min, 4339-4344  max, 4354-4359  minmax of an image *)
  Definition im_min (im : image A) : res A := vmin (pix im).
  Definition im_max (im : image A) : res A := vmax (pix im).
  Definition im_minmax (im : image A) : res (A * A) := vminmax (pix im).

  (** 4331-4337, 4346-4352  min and max of RGB, RGB_DOUBLE, HSV (apply_each_single_output 1685-1696) ... *)
  Definition im_min3 s d1 (im : image (list A)) : res (list A) :=
    mapM (fun k => let* p := get_plane s d1 im k in im_min p) (seq 0 3).
  Definition im_max3 s d1 (im : image (list A)) : res (list A) :=
    mapM (fun k => let* p := get_plane s d1 im k in im_max p) (seq 0 3).
  (** ... and of MultiChannel<T, n>: the channel count is 3 whatever n is *)
  Definition im_min_mc s d1 n (im : image (list A)) : res (list A) :=
    mapM (fun k => let* p := get_plane_mc s d1 n im k in im_min p) (seq 0 3).
End Extrema.

Section Count.
  Context {A : Type} (eqb : A -> A -> bool).

  (** 4361-4367  count: std::ranges::count *)
  Definition im_count (im : image A) (target : A) : nat :=
    fold_left (fun n x => if eqb x target then n + 1 else n) (pix im) 0.
  (** 4369-4382  count with a policy: partial counts, combined in any order *)
  Definition im_count_policy (im : image A) (target : A) (n : nat) : Prop :=
    reduces Nat.add (0 :: map (fun x => if eqb x target then 1 else 0) (pix im)) n.
  (** 4388-4426  replace: std::replace over the data of a copy, in the order [s] *)
  Definition im_replace (s : nat -> list nat) (im : image A) (target new_val : A) : res (image A) :=
    let* p := for_list (s (length (pix im))) (fun i r =>
      let* v := vget r i in if eqb v target then vset r i new_val else Ok r) (pix im) in
    Ok (mkImage (dims im) p).
  (** 4428-4433  unique_value *)
  Definition unique_value (im : image A) (target : A) : bool := im_count im target =? 1.
End Count.

(** ** sum and mean *)
(** 4288-4305  sum: std::reduce from ElementT{} with std::plus<ElementT> *)
Definition im_sum {A} (plus : A -> A -> A) (zero : A) (im : image A) (r : A) : Prop := reduces plus (zero :: pix im) r.

(** std::plus<T> for an unsigned T of [n] bits *)
Definition plus_unsigned (n : Z) (a b : Z) : Z := ((a + b) mod 2 ^ n)%Z.
(** std::plus<T> for a signed T at least as wide as int: overflow is undefined *)
Definition plus_signed (lo hi : Z) (a b : res Z) : res Z :=
  let* x := a in let* y := b in if (lo <=? x + y)%Z && (x + y <=? hi)%Z then Ok (x + y)%Z else UB.
Definition im_sum_signed (lo hi : Z) (im : image Z) (r : res Z) : Prop := reduces (plus_signed lo hi) (map Ok (0%Z :: pix im)) r.

(** 4307-4322  mean: ElementT / std::size_t.  Integral elements: both operands become std::size_t (the functor argument is not used) *)
Definition mean_div (s : Z) (n : nat) : res Z := if n =? 0 then UB else Ok (w64 s / Z.of_nat n)%Z.
Definition im_mean_unsigned (n : Z) (im : image Z) (r : res Z) : Prop :=
  exists s, im_sum (plus_unsigned n) 0%Z im s /\ r = mean_div s (count im).
Definition im_mean_signed (lo hi : Z) (im : image Z) (r : res Z) : Prop :=
  exists s, im_sum_signed lo hi im s /\ r = (let* x := s in mean_div x (count im)).
(** floating elements (rationals, exact); an empty image gives 0/0, not modelled as a number *)
Definition im_mean_q (im : image Q) (r : option Q) : Prop :=
  exists s, im_sum Qplus 0%Q im s /\ r = if count im =? 0 then None else Some (s / qn (count im))%Q.

(** ** distances *)
(** basic_functions.h:902-916  recursive_reduce of a vector: a left fold *)
Definition recursive_reduce1 {A B} (f : B -> A -> B) (l : list A) (init : B) : B := fold_left f l init.

(** 3887-3898  difference, [hi] the greatest value of the type of element1 - element2 (int for narrower elements) *)
Definition abs_diff (hi a b : Z) : res Z :=
  let d := if (b <? a)%Z then (a - b)%Z else (b - a)%Z in if (d <=? hi)%Z then Ok d else UB.
Definition difference_ty (hi : Z) (x y : image Z) : res (image Z) :=
  let* p := transform2M (abs_diff hi) (pix x) (pix y) in image_data p (dims x).
(** 3947-3957  manhattan_distance; the double accumulator is exact (an integer) *)
Definition manhattan_distance (hi : Z) (x y : image Z) : res Z :=
  if negb (size_eqb (dims x) (dims y)) then Throw RuntimeError
  else let* d := difference_ty hi x y in Ok (recursive_reduce1 Z.add (pix d) 0%Z).

(** 4156-4181  euclidean_distance of images, [sub] the subtraction of the element type followed by the conversion to double;
    basic_functions.h:1477-1517 two_input_map_reduce: std::reduce (or a loop) over the transformed pairs *)
Definition euclidean_distance {A} (sub : A -> A -> R) (x y : image A) (r : res R) : Prop :=
  if negb (size_eqb (dims x) (dims y)) then r = Throw RuntimeError
  else match length (pix x) =? length (pix y) with
       | false => r = Throw RuntimeError
       | true => exists p s, transform2 (fun a b => (sub a b ^ 2)%R) (pix x) (pix y) = Ok p /\ reduces Rplus (0%R :: p) s /\ r = Ok (sqrt s)
       end.
(** element1 - element2 for 32-bit unsigned elements *)
Definition sub_uint32 (a b : Z) : R := IZR ((a - b) mod 2 ^ 32).

(** 3971-3978  euclidean_distance of two arrays (sequential inner product from zero) *)
Definition euclidean_array (p q : list R) : R :=
  let diff := map (fun ab => (fst ab - snd ab)%R) (combine p q) in
  sqrt (fold_left (fun s d => (s + d * d)%R) diff 0%R).

(** 4084-4137  squared_euclidean_distance of two ranges, sequential *)
Fixpoint squared_range (p q : list R) (s : R) : res R :=
  match p, q with
  | [], [] => Ok s
  | a :: p', b :: q' => squared_range p' q' (s + (a - b) * (a - b))%R
  | _, _ => Throw RuntimeError
  end.
