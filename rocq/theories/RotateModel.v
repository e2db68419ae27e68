(** RotateModel.v - angle handling of rotate (image_operations.h:4721-4781, 5098-5149).

    Angles are exact rationals counted in quarter turns: radians = q * (pi / 2).  Comparisons with
    std::numbers::pi / 2 are comparisons with 1; rounding of pi to long double is not modelled. *)
From Verif Require Import Base ImageModel GeomModel.
From Coq Require Import QArith.

(** std::fmod(x, 1): remainder with the sign of x, truncating division *)
Definition qfmod1 (q : Q) : Q := (q - inject_Z (Z.quot (Qnum q) (Zpos (Qden q))))%Q.

Section Rotate.
  Context {A : Type}.
  Variable d : A.
  (** image_operations.h:4748-4780, the scatter by polar coordinates for the angles in between; not
      modelled: any function *)
  Variable general : image A -> Q -> res (image A).

  (** image_operations.h:4721-4781  rotate_detail *)
  Definition rotate_detail (im : image A) (q : Q) : res (image A) :=
    let* _ := check2d im in
    if Qeq_bool q 0 then Ok im
    else if Qeq_bool q 1 then rotate_quarter d im
    else general im q.

  (** 5107-5111: while (radians > pi / 2) { output = rotate_detail(output, pi / 2); radians -= pi / 2; } *)
  Fixpoint rotate_loop (fuel : nat) (im : image A) (q : Q) : option (res (image A * Q)) :=
    match fuel with
    | O => None
    | S fuel' =>
        if Qle_bool q 1 then Some (Ok (im, q))
        else match rotate_detail im 1 with
             | Ok im' => rotate_loop fuel' im' (q - 1)
             | Throw e => Some (Throw e)
             | UB => Some UB
             end
    end.

  (** image_operations.h:5098-5115  rotate; [None] only when the loop runs out of fuel *)
  Definition rotate (fuel : nat) (im : image A) (q : Q) : option (res (image A)) :=
    match check2d im with
    | Ok _ =>
        match rotate_loop fuel im (qfmod1 q) with
        | None => None
        | Some r => Some (let* iq := r in rotate_detail (fst iq) (snd iq))
        end
    | Throw e => Some (Throw e)
    | UB => Some UB
    end.
End Rotate.
