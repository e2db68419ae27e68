(** DrawModel.v - draw_point(s), draw_circle, draw_line (image_operations.h:6184-6326). *)
From Verif Require Import Base ImageModel GeomModel.

Section Draw.
  Context {A : Type}.
  Variable sg : nat -> nat -> list (nat * nat).     (* order of the parallel loop *)
  Implicit Types im : image A.

  (** number of iterations of [for (size_t v = lo; v <= hi; ++v)] (hi < 2^64 - 1) *)
  Definition span (lo hi : nat) : nat := if lo <=? hi then hi - lo + 1 else 0.

  (** image_operations.h:6184-6215  draw_point (two-dimensional points).  The bounds point - radius and
      point + radius are size_t; the distance test is on doubles, exact on integers. *)
  Definition draw_point im (px py : nat) (v : A) (r : nat) : res (image A) :=
    let* h := get_height im in let* w := get_width im in
    let y0 := usub py r in let x0 := usub px r in
    for_list (sg (span y0 (uadd py r)) (span x0 (uadd px r))) (fun p s =>
      let y := y0 + fst p in let x := x0 + snd p in
      if (w <=? x) || (h <=? y) then Ok s
      else if ((Z.of_nat x - Z.of_nat px) ^ 2 + (Z.of_nat y - Z.of_nat py) ^ 2 <? Z.of_nat r ^ 2)%Z
           then atu_set s [x; y] v
           else Ok s) im.

  (** image_operations.h:6217-6232  draw_points *)
  Definition draw_points im (ps : list (nat * nat)) (v : A) (r : nat) : res (image A) :=
    for_list ps (fun p s => draw_point s (fst p) (snd p) v r) im.

  (** output.set(std::make_tuple(cx + a, cy + b), value); size_t sums *)
  Definition circle_set (cx cy : nat) (v : A) (ab : Z * Z) (s : image A) : res (image A) :=
    let* r := set_tuple s [wn (Z.of_nat cx + fst ab); wn (Z.of_nat cy + snd ab)] v in Ok (snd r).

  (** 6268-6275  the eight symmetric writes *)
  Definition octants (x y : Z) : list (Z * Z) :=
    [(x, y); (- x, y); (x, - y); (- x, - y); (y, x); (- y, x); (y, - x); (- y, - x)]%Z.

  (** 6258-6276  [for (x = 0, y = radius; x <= y; x++)]; products are size_t; [None]: out of fuel *)
  Fixpoint circle_loop (fuel : nat) (cx cy : nat) (r : Z) (v : A) (x y : Z) (s : image A)
    : option (res (image A)) :=
    match fuel with
    | O => None
    | S fuel' =>
        if (x <=? y)%Z then
          let y1 := (y - 1)%Z in
          let y2 := if (w64 (x * x + y1 * y1) <? w64 (r * r))%Z then (y1 + 1)%Z else y1 in
          match for_list (octants x y2) (circle_set cx cy v) s with
          | Ok s' => circle_loop fuel' cx cy r v (x + 1)%Z y2 s'
          | Throw e => Some (Throw e)
          | UB => Some UB
          end
        else Some (Ok s)
    end.

  (** image_operations.h:6234-6279  draw_circle *)
  Definition draw_circle (fuel : nat) im (cx cy r : nat) (v : A) : option (res (image A)) :=
    match check2d im with
    | Ok _ => if r =? 0 then Some (Ok im) else circle_loop fuel cx cy (Z.of_nat r) v 0 (Z.of_nat r) im
    | Throw e => Some (Throw e)
    | UB => Some UB
    end.

  (** 6305-6324  the loop of draw_line; long is unbounded here (2 * err overflows only for extents
      beyond 2^61) *)
  Fixpoint line_loop (fuel : nat) (x2 y2 dx dy sx sy : Z) (v : A) (x1 y1 err : Z) (s : image A)
    : option (res (image A)) :=
    match fuel with
    | O => None
    | S fuel' =>
        let step :=
          let* w := get_width s in let* h := get_height s in
          if ((0 <=? x1) && (x1 <? Z.of_nat w) && (0 <=? y1) && (y1 <? Z.of_nat h))%Z
          then at_set s [Z.to_nat x1; Z.to_nat y1] v else Ok s in
        match step with
        | Ok s' =>
            if ((x1 =? x2) && (y1 =? y2))%Z then Some (Ok s')
            else
              let e2 := (2 * err)%Z in
              let bx := (dy <=? e2)%Z in let by_ := (e2 <=? dx)%Z in
              line_loop fuel' x2 y2 dx dy sx sy v
                (if bx then x1 + sx else x1)%Z (if by_ then y1 + sy else y1)%Z
                (err + (if bx then dy else 0) + (if by_ then dx else 0))%Z s'
        | Throw e => Some (Throw e)
        | UB => Some UB
        end
    end.

  (** image_operations.h:6285-6326  draw_line; the end points are the values after the cast to long *)
  Definition draw_line (fuel : nat) im (x1 y1 x2 y2 : Z) (v : A) : option (res (image A)) :=
    match check2d im with
    | Ok _ =>
        let dx := Z.abs (x2 - x1) in let dy := (- Z.abs (y2 - y1))%Z in
        line_loop fuel x2 y2 dx dy (if x1 <? x2 then 1 else -1)%Z (if y1 <? y2 then 1 else -1)%Z v
                  x1 y1 (dx + dy)%Z im
    | Throw e => Some (Throw e)
    | UB => Some UB
    end.
End Draw.
