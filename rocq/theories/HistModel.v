(** HistModel.v - histogram.h and the histogram functions of image_operations.h:1295-1511.

    Counts are size_t.  Values of the dense representation (uint8_t, uint16_t) are [nat] below the number
    [R] of values (256 or 65536); keys of the sparse representation are of any type with a strict order.
    Doubles are exact rationals; a quotient by zero is handled where the code can meet one. *)
From Coq Require Import QArith Qround.
From Verif Require Import Base ImageModel.
Open Scope nat_scope.

(** std::reduce (GENERALIZED_SUM): any permutation, any grouping of the operands *)
Inductive reduces {A} (op : A -> A -> A) : list A -> A -> Prop :=
| red_one a : reduces op [a] a
| red_split l l1 l2 a b :
    Permutation l (l1 ++ l2) -> reduces op l1 a -> reduces op l2 b -> reduces op l (op a b).

(** ** dense representation: std::vector<CountT> *)
(** histogram.h:30-40  Histogram() *)
Definition hd_empty (R : nat) : list nat := repeat 0 R.

(** histogram.h:124-142  addCount: ++vec[input], size_t *)
Definition hd_add (v : nat) (h : list nat) : res (list nat) :=
  let* c := vget h v in vset h v (uadd c 1).

(** histogram.h:53-69  Histogram(const Image&) *)
Definition hd_image (R : nat) (im : image nat) : res (list nat) := for_list (pix im) hd_add (hd_empty R).

(** histogram.h:72-90  getCount: vec.at(input) *)
Definition hd_count (h : list nat) (v : nat) : res nat :=
  if v <? length h then vget h v else Throw OutOfRange.

(** histogram.h:419-435  operator[] (non-const): checked reference, read and write through it *)
Definition hd_index (h : list nat) (v : nat) : res nat :=
  if length h <=? v then Throw OutOfRange else vget h v.
Definition hd_index_set (h : list nat) (v c : nat) : res (list nat) :=
  if length h <=? v then Throw OutOfRange else vset h v c.

(** histogram.h:438-448  operator[] const: zero outside *)
Definition hd_cindex (h : list nat) (v : nat) : res nat :=
  if length h <=? v then Ok 0 else vget h v.

(** histogram.h:93-121  getCountSum: std::reduce with the initial value 0 *)
Definition hd_total (h : list nat) (t : nat) : Prop := reduces uadd (0 :: h) t.

Definition q_of (n : nat) : Q := inject_Z (Z.of_nat n).

(** histogram.h:145-176  normalize: the output vector has R elements, the loop runs over the counts *)
Definition hd_normalize (R : nat) (h : list nat) (t : nat) : res (list Q) :=
  for_range (length h) (fun i out => let* c := vget h i in vset out i (q_of c / q_of t)%Q) (repeat 0%Q R).

(** histogram.h:193-207, 228  to_probabilities_vector (dense) *)
Definition hd_probabilities (R : nat) (h : list nat) (t : nat) : res (list Q) :=
  for_range R (fun i out => let* c := hd_count h i in vset out i (q_of c / q_of t)%Q) (repeat 0%Q R).

(** the same with CountT = double: the total is converted to size_t (truncation) at histogram.h:201 *)
Definition hdq_probabilities (R : nat) (h : list Q) (t : Q) : res (list Q) :=
  let total := q_of (Z.to_nat (Qfloor t)) in
  for_range R (fun i out =>
    let* c := (if i <? length h then vget h i else Throw OutOfRange) in vset out i (c / total)%Q) (repeat 0%Q R).

(** ** sparse representation: std::map<ElementT, CountT> as its list of entries in key order *)
Section Sparse.
  Context {K : Type} (ltb : K -> K -> bool).

  (** std::map::find: keys equivalent under < *)
  Fixpoint map_find {V} (k : K) (m : list (K * V)) : option V :=
    match m with
    | [] => None
    | (k', v) :: m' => if ltb k k' then None else if ltb k' k then map_find k m' else Some v
    end.

  (** map[k] = f(map[k]) with a value-initialised entry inserted when the key is absent *)
  Fixpoint map_upd {V} (d : V) (f : V -> V) (k : K) (m : list (K * V)) : list (K * V) :=
    match m with
    | [] => [(k, f d)]
    | (k', v) :: m' =>
        if ltb k k' then (k, f d) :: m
        else if ltb k' k then (k', v) :: map_upd d f k m'
        else (k', f v) :: m'
    end.

  (** map.emplace(k, v): an existing entry is kept *)
  Definition map_emplace {V} (k : K) (v : V) (m : list (K * V)) : list (K * V) :=
    map_upd v (fun x => x) k m.

  (** histogram.h:124-142  addCount *)
  Definition hs_add (m : list (K * nat)) (k : K) : list (K * nat) := map_upd 0 (fun c => uadd c 1) k m.

  (** histogram.h:53-69  Histogram(const Image&) *)
  Definition hs_image (im : image K) : list (K * nat) := fold_left hs_add (pix im) [].

  (** histogram.h:72-90  getCount; histogram.h:450-460  operator[] const *)
  Definition hs_count (m : list (K * nat)) (k : K) : nat :=
    match map_find k m with Some c => c | None => 0 end.

  (** histogram.h:432-434  operator[] non-const: read inserts a zero entry; write *)
  Definition hs_index (m : list (K * nat)) (k : K) : nat * list (K * nat) :=
    (hs_count m k, map_upd 0 (fun c => c) k m).
  Definition hs_index_set (m : list (K * nat)) (k : K) (c : nat) : list (K * nat) := map_upd 0 (fun _ => c) k m.

  (** histogram.h:93-121  getCountSum *)
  Definition hs_total (m : list (K * nat)) (t : nat) : Prop := reduces uadd (0 :: map snd m) t.

  (** histogram.h:162-170  normalize *)
  Definition hs_normalize (m : list (K * nat)) (t : nat) : list (K * Q) :=
    fold_left (fun out kv => map_emplace (fst kv) (q_of (snd kv) / q_of t)%Q out) m [].

  (** basic_functions.h:3312-3324  sum_second_element of a map: sum = sum + value *)
  Definition sum_second (m : list (K * nat)) : nat := fold_left (fun s kv => uadd s (snd kv)) m 0.

  (** image_operations.h:1420-1441  normalize_histogram of a map *)
  Definition normalize_histogram_map (m : list (K * nat)) : list (K * Q) := hs_normalize m (sum_second m).

  (** image_operations.h:1324-1341  histogram_normalized, sparse *)
  Definition histogram_normalized_sparse (im : image K) : list (K * Q) :=
    let w := (1 / q_of (count im))%Q in
    fold_left (fun out k =>
      match map_find k out with
      | Some _ => map_upd 0%Q (fun p => p + w)%Q k out
      | None => map_emplace k w out
      end) (pix im) [].
End Sparse.

(** image_operations.h:1307-1322  histogram_normalized, dense: array of R zeros *)
Definition histogram_normalized_dense (R : nat) (im : image nat) : res (list Q) :=
  let w := (1 / q_of (count im))%Q in
  for_list (pix im) (fun v out => let* p := vget out v in vset out v (p + w)%Q) (repeat 0%Q R).

(** image_operations.h:1403-1418 with get_normalized_input 1369-1401: normalize_histogram of an array whose
    element type wraps at [m]; the sum is a std::reduce in that type starting from zero *)
Definition wrap_add (m : Z) (a b : Z) : Z := ((a + b) mod m)%Z.
Definition normalize_histogram_array (m : Z) (h : list Z) (out : list Q) : Prop :=
  exists sum, reduces (wrap_add m) (0%Z :: h) sum /\ out = map (fun c => inject_Z c / inject_Z sum)%Q h.

(** ** image_operations.h:1343-1367  histogram_with_bins; conversion of a negative double to size_t is UB *)
Definition bin_of (bins : nat) (lowest max v : Z) : res nat :=
  let b := Qfloor (inject_Z v * q_of bins / (inject_Z max - inject_Z lowest))%Q in
  if (b <? 0)%Z then UB else Ok (Z.to_nat b).
Definition histogram_with_bins (bins : nat) (lowest max : Z) (im : image Z) : res (list nat) :=
  for_list (pix im) (fun v out =>
    let* b := bin_of bins lowest max v in
    let b := if b =? bins then usub bins 1 else b in
    let* c := vget out b in vset out b (uadd c 1)) (repeat 0 bins).

(** ** image_operations.h:1443-1482  otsu_threshold *)
(** m / w as a double; [None] stands for a NaN or infinite quotient (w = 0) *)
Definition fdiv (m w : Q) : option Q := if Qeq_bool w 0 then None else Some (m / w)%Q.

Record otsu_st := mkOtsu { ow1 : Q; ow2 : Q; om1 : Q; om2 : Q; obest : Q; oind : nat }.

(** w1 * w2 * c * c: when a quotient is not finite then w1 * w2 = 0 and the product is NaN, so that the
    comparison is false *)
Definition otsu_step (h : list Q) (ii : nat) (st : otsu_st) : res otsu_st :=
  let* x := vget h ii in
  let w1 := (ow1 st + x)%Q in
  let w2 := (ow2 st - x)%Q in
  let t := (x * q_of ii)%Q in
  let m1 := (om1 st + t)%Q in
  let m2 := (om2 st - t)%Q in
  match fdiv m1 w1, fdiv m2 w2 with
  | Some c1, Some c2 =>
      let c := (c1 - c2)%Q in
      let ss := (w1 * w2 * c * c)%Q in
      if Qle_bool ss (obest st) then Ok (mkOtsu w1 w2 m1 m2 (obest st) (oind st))
      else Ok (mkOtsu w1 w2 m1 m2 ss ii)
  | _, _ => Ok (mkOtsu w1 w2 m1 m2 (obest st) (oind st))
  end.

Definition otsu (h : list Q) : res nat :=
  let* wm := for_range (length h) (fun ii wm =>
    let* x := vget h ii in Ok (fst wm + x, snd wm + x * q_of ii)%Q) (0, 0)%Q in
  let* st := for_range (length h) (otsu_step h) (mkOtsu 0 (fst wm) 0 (snd wm) (-1000000) 0) in
  Ok (if Qeq_bool (obest st) (-1000000) then length h else oind st).

(** image_operations.h:1487-1511  otsu_threshold of an image with a dense histogram *)
Definition otsu_image (R : nat) (im : image nat) (t : nat) (out : res nat) : Prop :=
  exists h, hd_image R im = Ok h /\ hd_total h t /\
    out = (let* p := hd_probabilities R h t in otsu p).
