(** PropDraw.v - property theorems C23-C25 (drawing).

    [fuel] bounds the number of iterations; the theorems hold for every large enough fuel, so the loops of
    the code terminate. *)
From Coq Require Import ZifyBool ZifyNat.
From Verif Require Import Base ImageModel ImageFacts IndexModel ImageProofs GeomModel GeomProofs DrawModel DrawProofs.
Open Scope nat_scope.

(** C23: the drawn pixels are those of a path of pixels from the first to the second end point ([step8]:
    consecutive pixels differ by at most one in each axis; [near_line]: in the bounding box and at most half a
    pixel from the ideal line); all other pixels keep their value *)
Theorem C23_draw_line :
  forall (A : Type) (im : image A) w h f (x1 y1 x2 y2 : Z) v fuel,
  Repr im w h f -> (Z.to_nat (Z.max (Z.abs (x2 - x1)) (Z.abs (y2 - y1))) < fuel)%nat ->
  exists path o, draw_line fuel im x1 y1 x2 y2 v = Some (Ok o) /\
    hd (0, 0)%Z path = (x1, y1) /\ last path (0, 0)%Z = (x2, y2) /\
    length path = S (Z.to_nat (Z.max (Z.abs (x2 - x1)) (Z.abs (y2 - y1)))) /\
    (forall i p q, nth_error path i = Some p -> nth_error path (S i) = Some q ->
       p <> q /\ (Z.abs (fst q - fst p) <= 1 /\ Z.abs (snd q - snd p) <= 1)%Z) /\
    (forall p, In p path ->
       (Z.min x1 x2 <= fst p <= Z.max x1 x2 /\ Z.min y1 y2 <= snd p <= Z.max y1 y2 /\
        2 * Z.abs ((snd p - y1) * (x2 - x1) - (fst p - x1) * (y2 - y1))
          <= Z.max (Z.abs (x2 - x1)) (Z.abs (y2 - y1)))%Z) /\
    Repr o w h (fun x y => if existsb (fun p => (fst p =? Z.of_nat x)%Z && (snd p =? Z.of_nat y)%Z) path
                           then v else f x y).
Proof.
  intros A im w h f x1 y1 x2 y2 v fuel R Hf.
  destruct (draw_line_Repr im w h f x1 y1 x2 y2 v fuel R Hf) as (path & o & E & (H1 & H2) & HL & HC & HN & Ro).
  exists path, o; do 4 (split; [assumption|]); split; [|split; [|exact Ro]].
  2:{ intros p Hp; rewrite Forall_forall in HN; exact (HN p Hp). }
  (* a path of max(dx,dy)+1 pixels from end to end makes a step along the major axis each time *)
  set (M := Z.max (Z.abs (x2 - x1)) (Z.abs (y2 - y1))) in *.
  assert (ST : forall i p q, nth_error path i = Some p -> nth_error path (S i) = Some q -> step8 p q).
  { clear -HC; induction path as [|a l IH]; intros i p q Hp Hq; [destruct i; discriminate|].
    destruct l as [|b l]; [destruct i; discriminate|]; destruct HC as [S1 HC]; destruct i as [|i].
    - injection Hp as <-; injection Hq as <-; exact S1.
    - apply (IH HC i); auto. }
  intros i p q Hp Hq; split; [|exact (ST i p q Hp Hq)].
  intros <-.
  (* reaching coordinates: index bounds the progress from the start and to the end *)
  assert (FW : forall k a, nth_error path k = Some a ->
    (Z.abs (fst a - x1) <= Z.of_nat k /\ Z.abs (snd a - y1) <= Z.of_nat k)%Z).
  { induction k as [|k IHk]; intros a Ha.
    - destruct path as [|b l]; [discriminate|]; injection Ha as <-; cbn [hd] in H1; subst b; cbn [fst snd]; lia.
    - destruct (nth_error path k) as [b|] eqn:Eb.
      + destruct (ST k b a Eb Ha); destruct (IHk b eq_refl); lia.
      + apply nth_error_None in Eb; assert (nth_error path (S k) = None) by (apply nth_error_None; lia); congruence. }
  assert (LL : forall (l : list (Z * Z)) d, l <> [] -> nth_error l (length l - 1) = Some (last l d)).
  { induction l as [|b l IHl]; intros d Hn; [congruence|]; destruct l as [|c l]; [reflexivity|].
    change (last (b :: c :: l) d) with (last (c :: l) d); rewrite <- IHl by discriminate.
    cbn [length]; replace (S (S (length l)) - 1) with (S (S (length l) - 1)) by lia; reflexivity. }
  assert (BW : forall k j a, k + j = length path - 1 -> nth_error path k = Some a ->
    (Z.abs (x2 - fst a) <= Z.of_nat j /\ Z.abs (y2 - snd a) <= Z.of_nat j)%Z).
  { intros k j; revert k; induction j as [|j IHj]; intros k a Hk Ha.
    - rewrite Nat.add_0_r in Hk; subst k; rewrite (LL path (0, 0)%Z) in Ha by (destruct path; discriminate).
      injection Ha as <-; rewrite H2; cbn [fst snd]; lia.
    - destruct (nth_error_lt path (S k)) as [b Eb]; [lia|].
      destruct (ST k a b Ha Eb); destruct (IHj (S k) b ltac:(lia) Eb); lia. }
  assert (Hi : S i < length path) by (apply nth_error_Some; rewrite Hq; discriminate).
  destruct (FW i p Hp) as [F1 F2], (BW (S i) (length path - 1 - S i) p ltac:(lia) Hq) as [B1 B2]; lia.
Qed.
Print Assumptions C23_draw_line.

(** both end points are drawn when they lie in the image *)
Theorem C23_end_points_drawn :
  forall (A : Type) (im : image A) w h f (x1 y1 x2 y2 : Z) v fuel o,
  Repr im w h f -> (Z.to_nat (Z.max (Z.abs (x2 - x1)) (Z.abs (y2 - y1))) < fuel)%nat ->
  draw_line fuel im x1 y1 x2 y2 v = Some (Ok o) ->
  forall x y, x < w -> y < h ->
  ((x1 = Z.of_nat x /\ y1 = Z.of_nat y) \/ (x2 = Z.of_nat x /\ y2 = Z.of_nat y))%Z ->
  at_ o [x; y] = Ok v.
Proof.
  intros A im w h f x1 y1 x2 y2 v fuel o R Hf Eo x y Hx Hy HE.
  destruct (draw_line_Repr im w h f x1 y1 x2 y2 v fuel R Hf) as (path & o' & E & (H1 & H2) & HL & HC & HN & Ro).
  rewrite E in Eo; injection Eo as ->.
  rewrite (at_Repr o w h _ x y Ro Hx Hy); f_equal.
  assert (L : In (x1, y1) path /\ In (x2, y2) path).
  { destruct path as [|p l]; [discriminate|]; cbn [hd] in H1; subst p; split; [left; reflexivity|].
    rewrite <- H2; clear; generalize (x1, y1); induction l as [|b l IH]; intros p; [left; reflexivity|].
    right; apply IH. }
  assert (X : existsb (fun p => (fst p =? Z.of_nat x)%Z && (snd p =? Z.of_nat y)%Z) path = true).
  { apply existsb_exists; destruct L as [L1 L2], HE as [[E1 E2]|[E1 E2]];
      [exists (x1, y1) | exists (x2, y2)]; split; auto; cbn [fst snd]; lia. }
  rewrite X; reflexivity.
Qed.
Print Assumptions C23_end_points_drawn.

Theorem C23_other_dimensionality_throws :
  forall (A : Type) (im : image A) fuel x1 y1 x2 y2 v, length (dims im) <> 2 ->
  draw_line fuel im x1 y1 x2 y2 v = Some (Throw RuntimeError).
Proof. intros A im fuel x1 y1 x2 y2 v H; unfold draw_line; rewrite (check2d_not2 im H); reflexivity. Qed.
Print Assumptions C23_other_dimensionality_throws.

Example C23_example :
  draw_line 6 (mkImage [4; 3] (repeat 0 12)) (-1) 0 4 2 9 =
  Some (Ok (mkImage [4; 3] [9; 0; 0; 0;  0; 9; 9; 0;  0; 0; 0; 9])).
Proof. vm_compute; reflexivity. Qed.

(** C24: with lo <= hi the two absolute offsets from the centre, a pixel is painted iff hi is the least offset
    with lo^2 + hi^2 >= r^2 *)
Theorem C24_draw_circle :
  forall (A : Type) (im : image A) w h f cx cy r v fuel,
  Repr im w h f -> 0 < r -> (Z.of_nat r < 2 ^ 31)%Z -> r + 1 < fuel ->
  (Z.of_nat w <= 2 ^ 63)%Z -> (Z.of_nat h <= 2 ^ 63)%Z -> fits (cx + r) -> fits (cy + r) ->
  exists o, draw_circle fuel im cx cy r v = Some (Ok o) /\
    Repr o w h (fun x y =>
      let a := Z.abs (Z.of_nat x - Z.of_nat cx) in let b := Z.abs (Z.of_nat y - Z.of_nat cy) in
      let lo := Z.min a b in let hi := Z.max a b in let R := (Z.of_nat r * Z.of_nat r)%Z in
      if ((R <=? lo * lo + hi * hi) && (lo * lo + (hi - 1) * (hi - 1) <? R))%Z then v else f x y).
Proof. intros A im w h f cx cy r v fuel; exact (draw_circle_Repr im w h f cx cy r v fuel). Qed.
Print Assumptions C24_draw_circle.

(** radius zero returns the input; images that are not two-dimensional throw *)
Theorem C24_radius_zero :
  forall (A : Type) (im : image A) w h f cx cy v fuel, Repr im w h f ->
  draw_circle fuel im cx cy 0 v = Some (Ok im).
Proof. intros A im w h f cx cy v fuel R; unfold draw_circle; rewrite (check2d_Repr _ _ _ _ R); reflexivity. Qed.
Print Assumptions C24_radius_zero.

Theorem C24_other_dimensionality_throws :
  forall (A : Type) (im : image A) fuel cx cy r v, length (dims im) <> 2 ->
  draw_circle fuel im cx cy r v = Some (Throw RuntimeError).
Proof. intros A im fuel cx cy r v H; unfold draw_circle; rewrite (check2d_not2 im H); reflexivity. Qed.
Print Assumptions C24_other_dimensionality_throws.

Example C24_example :
  draw_circle 5 (mkImage [4; 4] (repeat 0 16)) 2 2 2 9 =
  Some (Ok (mkImage [4; 4] [0; 9; 9; 9;  9; 0; 0; 0;  9; 0; 0; 0;  9; 0; 0; 0])).
Proof. vm_compute; reflexivity. Qed.

(** C25 holds when the point is at least the radius away from the left and top border ... *)
Theorem C25_draw_point_partial :
  forall (A : Type) sg (im : image A) w h f px py v r,
  sched_ok sg -> Repr im w h f -> r <= px -> r <= py -> fits (px + r) -> fits (py + r) ->
  exists o, draw_point sg im px py v r = Ok o /\
    Repr o w h (fun x y =>
      if ((Z.of_nat x - Z.of_nat px) ^ 2 + (Z.of_nat y - Z.of_nat py) ^ 2 <? Z.of_nat r ^ 2)%Z then v else f x y).
Proof. intros A sg im w h f px py v r Hsg; exact (draw_point_Repr sg Hsg im w h f px py v r). Qed.
Print Assumptions C25_draw_point_partial.

Theorem C25_draw_points_partial :
  forall (A : Type) sg ps (im : image A) w h f v r,
  sched_ok sg -> Repr im w h f ->
  Forall (fun p => r <= fst p /\ r <= snd p /\ fits (fst p + r) /\ fits (snd p + r)) ps ->
  exists o, draw_points sg im ps v r = Ok o /\
    Repr o w h (fun x y =>
      if existsb (fun p => ((Z.of_nat x - Z.of_nat (fst p)) ^ 2 + (Z.of_nat y - Z.of_nat (snd p)) ^ 2 <? Z.of_nat r ^ 2)%Z) ps
      then v else f x y).
Proof. intros A sg ps im w h f v r Hsg; exact (draw_points_Repr sg Hsg ps im w h f v r). Qed.
Print Assumptions C25_draw_points_partial.

(** ... nearer to that border point - radius wraps and nothing at all is drawn *)
Theorem C25_near_border_nothing_drawn :
  forall (A : Type) sg (im : image A) w h f px py v r,
  sched_ok sg -> Repr im w h f -> (px < r \/ py < r) ->
  (Z.of_nat (px + r) < 2 ^ 63)%Z -> (Z.of_nat (py + r) < 2 ^ 63)%Z ->
  draw_point sg im px py v r = Ok im.
Proof.
  intros A sg im w h f px py v r Hsg R H B1 B2.
  apply (draw_point_wrap sg Hsg im w h f px py v r R H); unfold fits, two64; lia.
Qed.
Print Assumptions C25_near_border_nothing_drawn.

Theorem C25_draw_point_refuted :
  exists (im : image nat) w h f px py v r x y o,
    Repr im w h f /\ x < w /\ y < h /\
    ((Z.of_nat x - Z.of_nat px) ^ 2 + (Z.of_nat y - Z.of_nat py) ^ 2 < Z.of_nat r ^ 2)%Z /\
    draw_point grid im px py v r = Ok o /\ at_ o [x; y] = Ok (f x y) /\ f x y <> v.
Proof.
  exists (mkImage [3; 3] (repeat 0 9)), 3, 3, (fun _ _ => 0), 1, 1, 7, 2, 1, 1, (mkImage [3; 3] (repeat 0 9)).
  assert (R : Repr (mkImage [3; 3] (repeat 0 9)) 3 3 (fun _ _ => 0)).
  { split; [reflexivity|]; split; [reflexivity|]; intros x y Hx Hy.
    destruct x as [|[|[|?]]], y as [|[|[|?]]]; try lia; reflexivity. }
  split; [exact R|]; do 3 (split; [lia|]).
  split; [apply (C25_near_border_nothing_drawn nat grid _ 3 3 _ 1 1 7 2 sched_ok_grid R); lia|].
  split; [reflexivity|lia].
Qed.
Print Assumptions C25_draw_point_refuted.

Example C25_example :
  draw_point grid (mkImage [4; 4] (repeat 0 16)) 2 2 9 2 =
  Ok (mkImage [4; 4] [0; 0; 0; 0;  0; 9; 9; 9;  0; 9; 9; 9;  0; 9; 9; 9]).
Proof. vm_compute; reflexivity. Qed.
