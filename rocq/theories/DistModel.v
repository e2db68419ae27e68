(** DistModel.v - difference and manhattan_distance of pictures of doubles with rounded arithmetic (image_operations.h:3887-3898 and
    3947-3957; basic_functions.h:900-916).

    ReduceModel.v and ArithModel.v have them for integers and in exact arithmetic; here the operations are those of RoundModel.v. *)
From Coq Require Import ZArith Bool List.
From Verif Require Import Base ImageModel FloatModel RoundModel.
Import ListNotations.
Open Scope Z_scope.

(** 3887-3898  the lambda of difference *)
Definition ddiff (element1 element2 r : bits) : Prop := if dlt element2 element1 then dsub element1 element2 r else dsub element2 element1 r.
(** basic_functions.h:900-916  recursive_reduce of a vector: from the left, every partial sum is rounded *)
Inductive dfold : bits -> list bits -> bits -> Prop :=
| dfold_nil init : dfold init [] init
| dfold_cons init next element input r : dadd init element next -> dfold next input r -> dfold init (element :: input) r.
(** 3947-3957  manhattan_distance: the extents are compared first *)
Definition dmanhattan (input1 input2 : image bits) (r : res bits) : Prop :=
  if size_eqb (dims input1) (dims input2)
  then exists d s, combined ddiff input1 input2 (Ok d) /\ dfold 0 (pix d) s /\ r = Ok s
  else r = Throw RuntimeError.
