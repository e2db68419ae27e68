(** NormModel.v - normalize of a picture of doubles with rounded arithmetic (image_operations.h:2211-2228).

    FrameModel.v has the same function for any element type whose operations are functions; here the operations are those of
    RoundModel.v, which round, overflow and give NaN, and the comparison is that of FloatModel.v.  As in RoundModel.v the sign of a
    zero and the bits of a NaN are left open. *)
From Coq Require Import ZArith Reals Bool List.
From Verif Require Import Base ImageModel ReduceModel FloatModel FloatProofs RoundModel.
Import ListNotations.
Open Scope Z_scope.

(** / of any two doubles: [ddiv] and the divisions it leaves out.  The sign of a quotient by zero is left open, since it is that of
    the zero *)
Inductive dquot (a b c : bits) : Prop :=
| dquot_div : ddiv a b c -> dquot a b c
| dquot_by_zero x : means a (Fin x) -> x <> 0%R -> means b (Fin 0) -> (exists s, means c (Inf s)) -> dquot a b c
| dquot_inf_by_zero s : means a (Inf s) -> means b (Fin 0) -> (exists t, means c (Inf t)) -> dquot a b c
| dquot_by_inf x s : means a (Fin x) -> means b (Inf s) -> means c (Fin 0) -> dquot a b c
| dquot_infs s t : means a (Inf s) -> means b (Inf t) -> means c NaN -> dquot a b c.

(** 2211-2228  normalize.  std::ranges::max and min of no pixels are undefined.  subtract (3346-3353) checks the extents and
    divides (3586-3589) does not; the planes are copies of the input, so that the check of [combined] never fails *)
Definition dnormalize (input : image bits) (o : res (image bits)) : Prop :=
  match im_max dlt input, im_min dlt input with
  | Ok max_value, Ok min_value =>
      let min_value_plane := set_all_value input min_value in
      let max_value_plane := set_all_value input max_value in
      exists difference_value_plane lifted,
        combined dsub max_value_plane min_value_plane (Ok difference_value_plane)
        /\ combined dsub input min_value_plane (Ok lifted)
        /\ combined dquot lifted difference_value_plane o
  | _, _ => o = UB
  end.
