(** RoundModel.v - arithmetic of doubles with rounding, and the functions that depend on it: sum and mean of a picture of doubles
    (image_operations.h:4288-4322), += and -= of pictures of doubles (image.h:517-531).

    Elsewhere in this development doubles are real or rational numbers and no operation rounds; here the operations round as IEEE 754
    says, to the nearest double and, of two equally near ones, to the one whose last bit is zero.  An operation is a relation between
    the bit patterns of its operands and of its result; the sign of a zero result and the bits of a NaN result are left open. *)
From Coq Require Import ZArith Reals Bool List Permutation.
From Verif Require Import Base ImageModel FloatModel FloatProofs.
Import ListNotations.
Open Scope Z_scope.

(** the least magnitude that is rounded to an infinity: half a step above the greatest double *)
Definition too_large : R := (powerRZ 2 1024 - powerRZ 2 970)%R.
(** rounding of a real number, IEEE 754-2008, 4.3.1 *)
Definition rounds (x : R) (b : bits) : Prop :=
  if Rlt_dec (Rabs x) too_large
  then exists r, means b (Fin r) /\ forall b' r', means b' (Fin r') ->
         (Rabs (x - r) <= Rabs (x - r'))%R /\ (Rabs (x - r) = Rabs (x - r') -> r <> r' -> Z.even b = true)
  else means b (Inf (if Rlt_dec x 0 then true else false)).
Definition rounded (v : number) (b : bits) : Prop :=
  match v with Fin x => rounds x b | _ => means b v end.

(** the exact results *)
Definition plus_number (v w : number) : number :=
  match v, w with
  | Fin x, Fin y => Fin (x + y)
  | Inf s, Fin _ | Fin _, Inf s => Inf s
  | Inf s, Inf t => if Bool.eqb s t then Inf s else NaN
  | NaN, _ | _, NaN => NaN
  end.
Definition opp_number (v : number) : number :=
  match v with Fin x => Fin (- x) | Inf s => Inf (negb s) | NaN => NaN end.
Definition dadd (a b c : bits) : Prop := exists v w, means a v /\ means b w /\ rounded (plus_number v w) c.
Definition dsub (a b c : bits) : Prop := exists v w, means a v /\ means b w /\ rounded (plus_number v (opp_number w)) c.
(** division by a number that is not zero, and 0 / 0 *)
Inductive ddiv (a b c : bits) : Prop :=
| ddiv_fin x y : means a (Fin x) -> means b (Fin y) -> y <> 0%R -> rounds (x / y) c -> ddiv a b c
| ddiv_inf s y : means a (Inf s) -> means b (Fin y) -> y <> 0%R -> means c (Inf (if Rlt_dec y 0 then negb s else s)) -> ddiv a b c
| ddiv_zero : means a (Fin 0) -> means b (Fin 0) -> means c NaN -> ddiv a b c
| ddiv_nan : means a NaN \/ means b NaN -> means c NaN -> ddiv a b c.

(** std::reduce with std::plus: any order and grouping, every partial sum is rounded *)
Inductive sums : list bits -> bits -> Prop :=
| sums_one a : sums [a] a
| sums_two l l1 l2 a b c : Permutation l (l1 ++ l2) -> sums l1 a -> sums l2 b -> dadd a b c -> sums l c.
(** 4288-4305  sum of a picture of doubles, without and with a policy: std::reduce from 0.0 *)
Definition dsum (im : image bits) (r : bits) : Prop := sums (0 :: pix im) r.
(** 4307-4322  mean: the sum divided by count() converted to double *)
Definition dmean (im : image bits) (r : bits) : Prop :=
  exists s n, dsum im s /\ rounds (IZR (Z.of_nat (count im))) n /\ ddiv s n r.
(** image.h:517-531  += and -=: the extents must agree, every pixel is rounded *)
Definition combined (op : bits -> bits -> bits -> Prop) (x y : image bits) (o : res (image bits)) : Prop :=
  if size_eqb (dims y) (dims x)
  then (exists p, length p = length (pix x) /\ o = Ok (mkImage (dims x) p)
        /\ forall i a b, nth_error (pix x) i = Some a -> nth_error (pix y) i = Some b -> exists c, nth_error p i = Some c /\ op a b c)
  else o = Throw RuntimeError.
Definition dplus_assign : image bits -> image bits -> res (image bits) -> Prop := combined dadd.
Definition dminus_assign : image bits -> image bits -> res (image bits) -> Prop := combined dsub.
