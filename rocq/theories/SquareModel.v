(** SquareModel.v - squared_euclidean_distance and euclidean_distance of two ranges of doubles without a policy, with rounded
    arithmetic (image_operations.h:4055-4112 and 4141-4160).

    ReduceModel.v and GlueModel.v have them in exact arithmetic and for integers.  A product and the sum it is added to are rounded one
    after the other (no contraction to a fused operation). *)
From Coq Require Import ZArith Reals Bool List.
From Verif Require Import Base FloatModel FloatProofs RoundModel.
Import ListNotations.
Open Scope Z_scope.

(** diff * diff, and std::sqrt, which rounds to nearest *)
Definition square_number (v : number) : number := match v with Fin x => Fin (x * x) | Inf _ => Inf false | NaN => NaN end.
Definition root_number (v : number) : number :=
  match v with Fin x => if Rlt_dec x 0 then NaN else Fin (sqrt x) | Inf false => Inf false | _ => NaN end.
Definition dsquare (a c : bits) : Prop := exists v, means a v /\ rounded (square_number v) c.
Definition dsqrt (a c : bits) : Prop := exists v, means a v /\ rounded (root_number v) c.
(** 4085-4105  the loop stops at the end of the shorter range; if the other one has not ended it throws *)
Inductive dsquares : bits -> list bits -> list bits -> res bits -> Prop :=
| dsquares_end sum : dsquares sum [] [] (Ok sum)
| dsquares_first sum a range1 : dsquares sum (a :: range1) [] (Throw RuntimeError)
| dsquares_second sum b range2 : dsquares sum [] (b :: range2) (Throw RuntimeError)
| dsquares_next sum a range1 b range2 diff product next r :
    dsub a b diff -> dsquare diff product -> dadd sum product next -> dsquares next range1 range2 r ->
    dsquares sum (a :: range1) (b :: range2) r.
Definition dsquared_distance (range1 range2 : list bits) (r : res bits) : Prop := dsquares 0 range1 range2 r.
(** 4141-4160 *)
Definition ddistance (range1 range2 : list bits) (r : res bits) : Prop :=
  exists sq_dist, dsquared_distance range1 range2 sq_dist /\
    match sq_dist with Ok s => exists c, dsqrt s c /\ r = Ok c | _ => r = sq_dist end.
