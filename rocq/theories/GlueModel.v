(** GlueModel.v - smaller pieces: squared_euclidean_distance with a policy and on integral types (image_operations.h:4000-4112), sort
    (6175-6182), append (basic_functions.h:1859-1873), the order of HSV colours (base_types.h:132-138), a single command on the command
    line (main.cpp:1654-1700), and the blockwise transform of the command test (main.cpp:1068-1122). *)
From Coq Require Import Ascii String Reals Sorting.Sorted.
From Verif Require Import Base ImageModel IndexModel GeomModel PixelModel HistModel ReduceModel NestedModel FourierModel CliModel CommandModel ArithModel.
Open Scope nat_scope.

(** ** image_operations.h:4000-4112  squared_euclidean_distance on a range of elements of the integral type [t].  The result has the type
    of the elements (base_types.h:26-43) *)
(** the square of the difference: both in the promoted type *)
Definition times_elem (t : ity) (x y : Z) : res Z :=
  let z := (x * y)%Z in
  if signed t && (32 <=? bits t)%Z then (if (lowest t <=? z)%Z && (z <=? highest t)%Z then Ok z else UB) else Ok (conv t z).
Definition square_elem (t : ity) (x y : Z) : res Z :=
  let* diff := minus_elem (promote t) x y in times_elem (promote t) diff diff.
(** a sum in the promoted type, converted to the type of the elements *)
Definition add_square (t : ity) (a b : res Z) : res Z :=
  let* z := plus_elem (promote t) a b in Ok (conv t z).
(** 4069-4111  without a policy *)
Fixpoint squared_ints (t : ity) (p q : list Z) (sum_of_squares : Z) : res Z :=
  match p, q with
  | [], [] => Ok sum_of_squares
  | x :: p', y :: q' => let* s := add_square t (Ok sum_of_squares) (square_elem t x y) in squared_ints t p' q' s
  | _, _ => Throw RuntimeError
  end.
(** 4017-4055  with a policy: std::transform_reduce, any order and grouping; [r]: a result.  The partial sums are converted to the
    type of the elements, as libstdc++ does *)
Definition squared_ints_policy (t : ity) (p q : list Z) (r : res Z) : Prop :=
  if negb (length p =? length q) then r = Throw RuntimeError
  else reduces (add_square t) (Ok 0%Z :: map (fun xy => square_elem t (fst xy) (snd xy)) (combine p q)) r.
(** on floating elements (real numbers); without a policy: [squared_range] *)
Definition squared_range_policy (p q : list R) (r : res R) : Prop :=
  if negb (length p =? length q) then r = Throw RuntimeError
  else exists v, reduces Rplus (0%R :: map (fun xy => ((fst xy - snd xy) * (fst xy - snd xy))%R) (combine p q)) v /\ r = Ok v.

(** ** 6175-6182  sort: std::ranges::sort of a copy of the data, by its specification *)
Definition im_sort {A} (le : A -> A -> Prop) (im : image A) (r : list A) : Prop := Permutation (pix im) r /\ StronglySorted le r.

(** ** basic_functions.h:1859-1873  append: an array with one element more *)
Definition append {A} (a : list A) (t : A) : list A := map (fun i => nth i a t) (seq 0 (length a)) ++ [t].

(** ** base_types.h:132-138  the order of HSV colours, the key of a std::map: std::tie compares channel by channel *)
Definition rltb (a b : R) : bool := if Rlt_dec a b then true else false.
Definition hsv_less (a b : R * R * R) : bool :=
  let '(a0, a1, a2) := a in let '(b0, b1, b2) := b in
  if rltb a0 b0 then true else if rltb b0 a0 then false
  else if rltb a1 b1 then true else if rltb b1 a1 then false
  else rltb a2 b2.
(** ** main.cpp:1668-1686  a single command on the command line: its words are the arguments of the program; no pipeline, no optimiser *)
Definition run_once {V F} (reg : registry V F) (name : str) (args : list str) (st : state V F) : state V F := execute V F reg name args st.

(** ** main.cpp:1079-1107  the plane of the values in the command test: taken apart into blocks of about N1 by N2 pixels, each
    transformed and transformed back, and put together.  [sg], [sg']: the orders of the parallel loops *)
Definition blockwise (sg sg' : nat -> nat -> list (nat * nat)) (N1 N2 : nat) (v_plane : image R) : res (image R) :=
  let* w := get_width v_plane in let* h := get_height v_plane in
  let* block_count_x := udiv w N1 in let* block_count_y := udiv h N2 in
  let* split_v_plane := split 0%R sg v_plane block_count_x block_count_y in
  let* blocks := recursive_transform (fun element =>
      let* v_block_dct := dct2 (fun v => v) sg element in idct2 (fun v => v) sg' v_block_dct) 2 split_v_plane in
  concat 0%R blocks.
