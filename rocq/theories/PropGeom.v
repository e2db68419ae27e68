(** PropGeom.v - property theorems C11-C22 (geometric operations).

    [Repr im w h f] says: [im] is the two-dimensional w by h image whose pixel at (x, y) is [f x y].
    [sg] is any order of the iterations of the parallel loops ([sched_ok]). *)
From Coq Require Import ZifyBool ZifyNat QArith.
From Verif Require Import Base ImageModel ImageFacts IndexModel ImageProofs GeomModel GeomProofs PadProofs
  CropProofs RotateModel RotateProofs.
Open Scope nat_scope.
Ltac Zify.zify_post_hook ::= Z.div_mod_to_equations.

(** C11 *)
Theorem C11_transpose :
  forall (A : Type) (d : A) sg (im : image A) w h f,
  sched_ok sg -> Repr im w h f ->
  exists o, transpose d im = Ok o /\ transpose_policy d sg im = Ok o /\
    Repr o h w (fun x y => f y x) /\
    transpose d o = Ok im /\ transpose_policy d sg o = Ok im.
Proof.
  intros A d sg im w h f Hsg R.
  destruct (transpose_Repr d im w h f R) as (o & E & Ro).
  destruct (transpose_policy_Repr d sg Hsg im w h f R) as (o' & E' & Ro').
  assert (o' = o) as -> by (eapply Repr_unique; eauto).
  exists o; do 3 (split; auto).
  destruct (transpose_Repr d o h w _ Ro) as (p & Ep & Rp).
  destruct (transpose_policy_Repr d sg Hsg o h w _ Ro) as (p' & Ep' & Rp').
  rewrite Ep, Ep'; split; f_equal; eapply Repr_unique; eauto.
Qed.
Print Assumptions C11_transpose.

Theorem C11_other_dimensionality_throws :
  forall (A : Type) (d : A) sg (im : image A), length (dims im) <> 2 ->
  transpose d im = Throw RuntimeError /\ transpose_policy d sg im = Throw RuntimeError.
Proof.
  intros A d sg im H; unfold transpose, transpose_policy; rewrite (check2d_not2 im H); split; reflexivity.
Qed.
Print Assumptions C11_other_dimensionality_throws.

Example C11_example :
  Repr (mkImage [3; 2] [1; 2; 3; 4; 5; 6]) 3 2 (fun x y => 1 + x + 3 * y) /\ sched_ok (fun h w => rev (grid h w)) /\
  transpose 0 (mkImage [3; 2] [1; 2; 3; 4; 5; 6]) = Ok (mkImage [2; 3] [1; 4; 2; 5; 3; 6]).
Proof.
  split; [|split; [intros h w; apply Permutation_sym, Permutation_rev | reflexivity]].
  split; [reflexivity|]; split; [reflexivity|]; intros x y Hx Hy.
  destruct x as [|[|[|?]]], y as [|[|?]]; try lia; reflexivity.
Qed.

(** C12 *)
Theorem C12_flip_horizontal :
  forall (A : Type) sg (im : image A) w h f, sched_ok sg -> Repr im w h f ->
  exists o, flip_horizontal sg im = Ok o /\ Repr o w h (fun x y => f (w - 1 - x) y) /\ flip_horizontal sg o = Ok im.
Proof.
  intros A sg im w h f Hsg R; destruct (flip_horizontal_Repr sg Hsg im w h f R) as (o & E & Ro).
  exists o; do 2 (split; auto); destruct (flip_horizontal_Repr sg Hsg o w h _ Ro) as (p & Ep & Rp).
  rewrite Ep; f_equal; eapply Repr_unique; eauto; intros x y Hx Hy; cbv beta; f_equal; lia.
Qed.
Print Assumptions C12_flip_horizontal.

Theorem C12_flip_vertical :
  forall (A : Type) sg (im : image A) w h f, sched_ok sg -> Repr im w h f ->
  exists o, flip_vertical sg im = Ok o /\ Repr o w h (fun x y => f x (h - 1 - y)) /\ flip_vertical sg o = Ok im.
Proof.
  intros A sg im w h f Hsg R; destruct (flip_vertical_Repr sg Hsg im w h f R) as (o & E & Ro).
  exists o; do 2 (split; auto); destruct (flip_vertical_Repr sg Hsg o w h _ Ro) as (p & Ep & Rp).
  rewrite Ep; f_equal; eapply Repr_unique; eauto; intros x y Hx Hy; cbv beta; f_equal; lia.
Qed.
Print Assumptions C12_flip_vertical.

(** the combined flip: both mirrors, an involution, the composition of the two flips in either order *)
Theorem C12_flip_both :
  forall (A : Type) sg (im : image A) w h f, sched_ok sg -> Repr im w h f ->
  exists o, flip_horizontal_vertical sg im = Ok o /\ Repr o w h (fun x y => f (w - 1 - x) (h - 1 - y)) /\
    flip_horizontal_vertical sg o = Ok im /\
    (let* a := flip_horizontal sg im in flip_vertical sg a) = Ok o /\
    (let* a := flip_vertical sg im in flip_horizontal sg a) = Ok o.
Proof.
  intros A sg im w h f Hsg R; destruct (flip_horizontal_vertical_Repr sg Hsg im w h f R) as (o & E & Ro).
  exists o; do 2 (split; auto); split.
  - destruct (flip_horizontal_vertical_Repr sg Hsg o w h _ Ro) as (p & Ep & Rp).
    rewrite Ep; f_equal; eapply Repr_unique; eauto; intros x y Hx Hy; cbv beta; f_equal; lia.
  - destruct (flip_horizontal_Repr sg Hsg im w h f R) as (a & Ea & Ra).
    destruct (flip_vertical_Repr sg Hsg im w h f R) as (b & Eb & Rb).
    destruct (flip_vertical_Repr sg Hsg a w h _ Ra) as (a' & Ea' & Ra').
    destruct (flip_horizontal_Repr sg Hsg b w h _ Rb) as (b' & Eb' & Rb').
    rewrite Ea, Eb; cbn [bind]; rewrite Ea', Eb'; split; f_equal; eapply Repr_unique; eauto.
Qed.
Print Assumptions C12_flip_both.

Theorem C12_other_dimensionality_throws :
  forall (A : Type) sg (im : image A), length (dims im) <> 2 ->
  flip_horizontal sg im = Throw RuntimeError /\ flip_vertical sg im = Throw RuntimeError /\
  flip_horizontal_vertical sg im = Throw RuntimeError.
Proof.
  intros A sg im H; unfold flip_horizontal, flip_vertical, flip_horizontal_vertical.
  rewrite (check2d_not2 im H); repeat split; reflexivity.
Qed.
Print Assumptions C12_other_dimensionality_throws.

Example C12_example :
  flip_horizontal grid (mkImage [3; 2] [1; 2; 3; 4; 5; 6]) = Ok (mkImage [3; 2] [3; 2; 1; 6; 5; 4]) /\
  flip_vertical grid (mkImage [3; 2] [1; 2; 3; 4; 5; 6]) = Ok (mkImage [3; 2] [4; 5; 6; 1; 2; 3]) /\
  flip_horizontal_vertical grid (mkImage [3; 2] [1; 2; 3; 4; 5; 6]) = Ok (mkImage [3; 2] [6; 5; 4; 3; 2; 1]).
Proof. repeat split. Qed.

(** C13: one quarter turn sends (x, y) to (h - 1 - y, x); four of them are the identity *)
Theorem C13_quarter_turn :
  forall (A : Type) (d : A) (im : image A) w h f, Repr im w h f ->
  exists o, rotate_quarter d im = Ok o /\ dims o = [h; w] /\
    (forall x y, x < w -> y < h -> lookup o [h - 1 - y; x] = Some (f x y)) /\
    (let* a := rotate_quarter d o in let* b := rotate_quarter d a in rotate_quarter d b) = Ok im.
Proof.
  intros A d im w h f R.
  destruct (rotate_quarter_Repr d im w h f R) as (o & E & Ro); exists o; split; auto.
  split; [apply Ro|]; split.
  - intros x y Hx Hy; unfold lookup; destruct Ro as (D & L & H); rewrite D, off2, H by lia; do 2 f_equal; lia.
  - destruct (rotate_quarter_Repr d o h w _ Ro) as (a & Ea & Ra); rewrite Ea; cbn [bind].
    destruct (rotate_quarter_Repr d a w h _ Ra) as (b & Eb & Rb); rewrite Eb; cbn [bind].
    destruct (rotate_quarter_Repr d b h w _ Rb) as (c & Ec & Rc); rewrite Ec; f_equal.
    eapply Repr_unique; eauto; intros x y Hx Hy; cbv beta; f_equal; lia.
Qed.
Print Assumptions C13_quarter_turn.

(** rotate_detail by exactly a quarter turn is that step, and by 0 the identity *)
Theorem C13_rotate_detail_partial :
  forall (A : Type) (d : A) general (im : image A) q, length (dims im) = 2 ->
  ((q == 1)%Q -> rotate_detail d general im q = rotate_quarter d im) /\
  ((q == 0)%Q -> rotate_detail d general im q = Ok im).
Proof.
  intros A d general im q D; split; [intros; apply rotate_detail_quarter; auto|].
  intros E; unfold rotate_detail, check2d, get_dimensionality; rewrite D; cbn [Nat.eqb bind].
  apply Qeq_bool_iff in E; rewrite E; reflexivity.
Qed.
Print Assumptions C13_rotate_detail_partial.

(** The full statement (rotate by k quarter turns turns the image k times) is false: the angle is first
    reduced modulo a quarter turn, so rotate by ANY multiple of 90 degrees returns the image unturned. *)
Theorem C13_rotate_multiple_never_turns :
  forall (A : Type) (d : A) general (im : image A) w h f fuel k, Repr im w h f -> 0 < fuel ->
  rotate d general fuel im (inject_Z k) = Some (Ok im).
Proof. intros; eapply rotate_multiple; eauto. Qed.
Print Assumptions C13_rotate_multiple_never_turns.

Theorem C13_rotate_refuted :
  exists (im : image nat) w h f, Repr im w h f /\ forall d general fuel, 0 < fuel ->
    rotate d general fuel im 1 <> Some (rotate_quarter d im).
Proof.
  exists (mkImage [1; 2] [7; 8]), 1, 2, (fun x y => 7 + y); split.
  - split; [reflexivity|]; split; [reflexivity|]; intros x y Hx Hy.
    destruct x, y as [|[|?]]; try lia; reflexivity.
  - intros d general fuel Hf C; destruct fuel as [|fuel]; [lia|]; vm_compute in C; discriminate.
Qed.
Print Assumptions C13_rotate_refuted.

Example C13_example :
  rotate_quarter 0 (mkImage [3; 2] [1; 2; 3; 4; 5; 6]) = Ok (mkImage [2; 3] [4; 1; 5; 2; 6; 3]).
Proof. reflexivity. Qed.

(** C14: [crop_pos c s o = c - s / 2 + o] over the integers.  Hypothesis [crop_fits]: extents of the input
    at most 2^63 and centre + extent below 2^64. *)
Theorem C14_subimage :
  forall (A : Type) (d : A) (im : image A) ds f sizes centers default,
  ReprN im ds f -> length sizes = length ds -> length centers = length ds ->
  0 < prodn sizes -> crop_fits ds sizes centers ->
  exists o, subimage d im sizes centers default = Ok o /\ dims o = sizes /\
    forall p, in_range sizes p ->
      lookup o p = Some (if insideb (crop_poss centers sizes p) ds
                         then f (map Z.to_nat (crop_poss centers sizes p)) else default).
Proof.
  intros A d im ds f sizes centers default R L1 L2 P F.
  destruct (subimage_ReprN d im ds f sizes centers default R L1 L2 P F) as (o & E & D & L & H).
  exists o; split; auto; split; auto; intros p Hp; unfold lookup; rewrite D; apply H, Hp.
Qed.
Print Assumptions C14_subimage.

(** [insideb] is membership in the input's extents *)
Theorem C14_inside_meaning :
  forall zs ds, length zs = length ds ->
  insideb zs ds = true <-> Forall2 (fun z n => 0 <= z < Z.of_nat n)%Z zs ds.
Proof. exact inside_b. Qed.
Print Assumptions C14_inside_meaning.

Theorem C14_wrong_arity_throws :
  forall (A : Type) (d : A) (im : image A) sizes centers default,
  length sizes <> length (dims im) \/ length centers <> length (dims im) ->
  subimage d im sizes centers default = Throw RuntimeError.
Proof. exact @subimage_arity_throws. Qed.
Print Assumptions C14_wrong_arity_throws.

Example C14_example :
  crop_fits [3; 3] [3; 2] [0; 2] /\
  subimage 0 (mkImage [3; 3] [1; 2; 3; 4; 5; 6; 7; 8; 9]) [3; 2] [0; 2] 50 = Ok (mkImage [3; 2] [50; 4; 5; 50; 7; 8]).
Proof. split; [split; repeat constructor; vm_compute; congruence | vm_compute; reflexivity]. Qed.

(** C15 *)
Theorem C15_subimage2_partial :
  forall (A : Type) (d : A) sg (im : image A) w h f x1 x2 y1 y2,
  sched_ok sg -> Repr im w h f ->
  (x1 <= x2 < w -> y1 <= y2 < h ->
   exists o, subimage2 d sg im x1 x2 y1 y2 = Ok o /\
     Repr o (x2 - x1 + 1) (y2 - y1 + 1) (fun x y => f (x1 + x) (y1 + y))) /\
  (x2 < x1 \/ y2 < y1 \/ w < x2 \/ h < y2 -> subimage2 d sg im x1 x2 y1 y2 = Throw RuntimeError).
Proof.
  intros A d sg im w h f x1 x2 y1 y2 Hsg R; split.
  - intros [H1 H2] [H3 H4]; apply (subimage2_Repr d sg Hsg im w h f); auto.
  - intros H; apply (subimage2_throws d sg im w h f); auto; tauto.
Qed.
Print Assumptions C15_subimage2_partial.

(** The full statement (throw whenever the rectangle is not inside) fails exactly at x2 = w or y2 = h,
    because the bound is tested with > : a wrong pixel is returned, or memory past the image is read. *)
Theorem C15_subimage2_refuted :
  exists (im : image nat) w h f, Repr im w h f /\
    subimage2 0 grid im 0 w 0 0 = Ok (mkImage [3; 1] [1; 2; 3]) /\ f 0 1 = 3 /\
    subimage2 0 grid im 0 0 0 h = UB.
Proof.
  exists (mkImage [2; 2] [1; 2; 3; 4]), 2, 2, (fun x y => 1 + x + 2 * y); split; [|repeat split].
  split; [reflexivity|]; split; [reflexivity|]; intros x y Hx Hy.
  destruct x as [|[|?]], y as [|[|?]]; try lia; reflexivity.
Qed.
Print Assumptions C15_subimage2_refuted.

Example C15_example :
  subimage2 0 grid (mkImage [3; 2] [1; 2; 3; 4; 5; 6]) 1 2 0 1 = Ok (mkImage [2; 2] [2; 3; 5; 6]).
Proof. reflexivity. Qed.

(** C16 *)
Theorem C16_split_cells :
  forall (A : Type) (d : A) sg (im : image A) w h f xs ys,
  sched_ok sg -> Repr im w h f -> 0 < xs -> 0 < ys -> 0 < w / xs -> 0 < h / ys -> fits w -> fits h ->
  exists cells, split d sg im xs ys = Ok cells /\ length cells = ys /\
    forall y row, nth_error cells y = Some row -> length row = xs /\
      forall x cell, nth_error row x = Some cell ->
        Repr cell (w / xs) (h / ys) (fun a b => f (x * (w / xs) + a) (y * (h / ys) + b)).
Proof.
  intros A d sg im w h f xs ys Hsg R Hxs Hys Hbx Hby Fw Fh.
  destruct (split_Repr d sg Hsg im w h f xs ys R Hxs Hys Hbx Hby Fw Fh) as (cells & E & HF).
  exists cells; split; auto; pose proof (Forall2_length _ _ _ HF) as L; rewrite seq_length in L; split; auto.
  intros y row Hy.
  assert (Y : y < length cells) by (apply nth_error_Some; congruence).
  destruct (Forall2_nth _ _ _ y y HF) as (row' & Er & HR); [rewrite nth_error_seq; auto; lia|].
  rewrite Hy in Er; injection Er as <-.
  pose proof (Forall2_length _ _ _ HR) as LR; rewrite seq_length in LR; split; auto.
  intros x cell Hx; assert (X : x < length row) by (apply nth_error_Some; congruence).
  destruct (Forall2_nth _ _ _ x x HR) as (cell' & Ec & Rc); [rewrite nth_error_seq; auto; lia|].
  rewrite Hx in Ec; injection Ec as <-; exact Rc.
Qed.
Print Assumptions C16_split_cells.

Theorem C16_split_concat_identity :
  forall (A : Type) (d : A) sg (im : image A) w h f xs ys bx by_,
  sched_ok sg -> Repr im w h f -> w = xs * bx -> h = ys * by_ -> 0 < w -> 0 < h -> fits w -> fits h ->
  exists cells, split d sg im xs ys = Ok cells /\ concat d cells = Ok im.
Proof. intros A d sg im w h f xs ys bx by_ Hsg; exact (split_concat_id d sg Hsg im w h f xs ys bx by_). Qed.
Print Assumptions C16_split_concat_identity.

Example C16_example :
  split 0 grid (mkImage [4; 2] [1; 2; 3; 4; 5; 6; 7; 8]) 2 1 =
    Ok [[mkImage [2; 2] [1; 2; 5; 6]; mkImage [2; 2] [3; 4; 7; 8]]] /\
  concat 0 [[mkImage [2; 2] [1; 2; 5; 6]; mkImage [2; 2] [3; 4; 7; 8]]] =
    Ok (mkImage [4; 2] [1; 2; 3; 4; 5; 6; 7; 8]).
Proof. split; vm_compute; reflexivity. Qed.

(** C17: [specs] gives, per image, its extent along the axis and its pixel function;
    [hcat_fun]/[vcat_fun] look a coordinate up in the images laid out one after the other *)
Theorem C17_concat_horizontal :
  forall (A : Type) (d : A) (im : image A) w h f ims specs,
  Repr im w h f -> Forall2 (fun im p => Repr im (fst p) h (snd p)) ims specs ->
  exists o, concat_horizontal d (im :: ims) = Ok o /\
            Repr o (sum_ext ((w, f) :: specs)) h (hcat_fun d ((w, f) :: specs)).
Proof. exact @concat_horizontal_Repr. Qed.
Print Assumptions C17_concat_horizontal.

Theorem C17_concat_vertical :
  forall (A : Type) (d : A) (im : image A) w h f ims specs,
  Repr im w h f -> Forall2 (fun im p => Repr im w (fst p) (snd p)) ims specs ->
  exists o, concat_vertical d (im :: ims) = Ok o /\
            Repr o w (sum_ext ((h, f) :: specs)) (vcat_fun d ((h, f) :: specs)).
Proof. exact @concat_vertical_Repr. Qed.
Print Assumptions C17_concat_vertical.

(** the first image of another cross extent makes the concatenation throw *)
Theorem C17_concat_mismatch_throws :
  forall (A : Type) (d : A) (im : image A) w h f ims specs bad wb hb fb rest,
  Repr im w h f -> Repr bad wb hb fb ->
  (Forall2 (fun im p => Repr im (fst p) h (snd p)) ims specs -> hb <> h ->
   concat_horizontal d (im :: ims ++ bad :: rest) = Throw RuntimeError) /\
  (Forall2 (fun im p => Repr im w (fst p) (snd p)) ims specs -> wb <> w ->
   concat_vertical d (im :: ims ++ bad :: rest) = Throw RuntimeError).
Proof.
  intros A d im w h f ims specs bad wb hb fb rest R Rb; split; intros HF N.
  - destruct (concat_horizontal_Repr d im w h f ims specs R HF) as (o & E & Ro).
    unfold concat_horizontal in *; rewrite for_list_app, E; cbn [bind for_list].
    rewrite (concat_horizontal2_throws d o bad _ _ _ _ _ _ Ro Rb) by auto; reflexivity.
  - destruct (concat_vertical_Repr d im w h f ims specs R HF) as (o & E & Ro).
    unfold concat_vertical in *; rewrite for_list_app, E; cbn [bind for_list].
    rewrite (concat_vertical2_throws d o bad _ _ _ _ _ _ Ro Rb) by auto; reflexivity.
Qed.
Print Assumptions C17_concat_mismatch_throws.

(** an empty list of images is dereferenced *)
Theorem C17_empty_list_refuted :
  exists ims : list (image nat), Forall (fun im => exists f, Repr im 1 1 f) ims /\
    concat_horizontal 0 ims = UB /\ concat_vertical 0 ims = UB.
Proof. exists []; repeat split; constructor. Qed.
Print Assumptions C17_empty_list_refuted.

Example C17_example :
  concat_horizontal 0 [mkImage [2; 1] [1; 2]; mkImage [1; 1] [3]; mkImage [2; 1] [4; 5]] = Ok (mkImage [5; 1] [1; 2; 3; 4; 5]) /\
  concat_vertical 0 [mkImage [2; 1] [1; 2]; mkImage [2; 2] [3; 4; 5; 6]] = Ok (mkImage [2; 3] [1; 2; 3; 4; 5; 6]) /\
  concat_vertical 0 [mkImage [2; 1] [1; 2]; mkImage [1; 2] [3; 4]] = Throw RuntimeError.
Proof. repeat split. Qed.

(** C18: where the cells of an overlapped split really come from ([pf]: the padded image): the block start
    minus the overlap, not shifted by the padding, and one more to the left for even block extents *)
Theorem C18_split_overlap_partial :
  forall (A : Type) (d : A) sg (im : image A) w h f xs ys ex ey bc c pad pf,
  sched_ok sg -> Repr im w h f -> 0 < xs -> 0 < ys -> 0 < w / xs -> 0 < h / ys ->
  padded_image d sg im ex ey bc c = Ok pad -> Repr pad (w + 2 * ex) (h + 2 * ey) pf ->
  (Z.of_nat (w + 2 * ex) <= 2 ^ 62)%Z -> (Z.of_nat (h + 2 * ey) <= 2 ^ 62)%Z ->
  exists cells, split_overlap d sg im xs ys ex ey bc c = Ok cells /\
    Forall2 (fun y row => Forall2 (fun x cell =>
      Repr cell (w / xs + 2 * ex) (h / ys + 2 * ey) (fun a b =>
        let u := (Z.of_nat (x * (w / xs)) - Z.of_nat ex - (if Nat.even (w / xs) then 1 else 0) + Z.of_nat a)%Z in
        let v := (Z.of_nat (y * (h / ys)) - Z.of_nat ey - (if Nat.even (h / ys) then 1 else 0) + Z.of_nat b)%Z in
        if (0 <=? u)%Z && (u <? Z.of_nat (w + 2 * ex))%Z && ((0 <=? v)%Z && (v <? Z.of_nat (h + 2 * ey))%Z)
        then pf (Z.to_nat u) (Z.to_nat v) else d)) (seq 0 xs) row) (seq 0 ys) cells.
Proof. intros A d sg im w h f xs ys ex ey bc c pad pf Hsg; exact (split_overlap_Repr d sg im w h f xs ys ex ey bc c pad pf). Qed.
Print Assumptions C18_split_overlap_partial.

(** Full statement: cell (x, y) shows, at (a, b), the padded image at (x * bw + a, y * bh + b).  It is false
    already for a single cell without overlap (even extent), and for odd extents as soon as there is overlap. *)
Theorem C18_split_overlap_refuted :
  (exists im, Repr im 2 2 (fun x y => 1 + x + 2 * y) /\
     split_overlap 0 grid im 1 1 0 0 BConstant 0 = Ok [[mkImage [2; 2] [0; 0; 0; 1]]]) /\
  (exists im, Repr im 1 1 (fun _ _ => 7) /\
     padded_image 0 grid im 1 1 BConstant 5 = Ok (mkImage [3; 3] [5; 5; 5; 5; 7; 5; 5; 5; 5]) /\
     split_overlap 0 grid im 1 1 1 1 BConstant 5 = Ok [[mkImage [3; 3] [0; 0; 0; 0; 5; 5; 0; 5; 7]]]).
Proof.
  split.
  - exists (mkImage [2; 2] [1; 2; 3; 4]); split; [|vm_compute; reflexivity].
    split; [reflexivity|]; split; [reflexivity|]; intros x y Hx Hy.
    destruct x as [|[|?]], y as [|[|?]]; try lia; reflexivity.
  - exists (mkImage [1; 1] [7]); split; [|split; vm_compute; reflexivity].
    split; [reflexivity|]; split; [reflexivity|]; intros x y Hx Hy; destruct x, y; try lia; reflexivity.
Qed.
Print Assumptions C18_split_overlap_refuted.

Example C18_example :
  split_overlap 0 grid (mkImage [3; 1] [7; 8; 9]) 1 1 0 0 BConstant 5 = Ok [[mkImage [3; 1] [7; 8; 9]]].
Proof. vm_compute; reflexivity. Qed.

(** C19: [inrect xl yl tw th x y] is membership in the pasted rectangle.  Hypotheses: the sums
    extent + location do not wrap, and the canvas is not empty. *)
Theorem C19_paste2D_partial :
  forall (A : Type) (bg tg : image A) bw bh tw th fb ft xl yl default,
  Repr bg bw bh fb -> Repr tg tw th ft ->
  fits bw -> fits bh -> fits (tw + xl) -> fits (th + yl) ->
  (tw + xl <= bw /\ th + yl <= bh \/ 0 < Nat.max bw (tw + xl) * Nat.max bh (th + yl)) ->
  exists o, paste2D bg tg xl yl default = Ok o /\
    Repr o (Nat.max bw (tw + xl)) (Nat.max bh (th + yl))
      (fun x y => if (xl <=? x) && (x <? xl + tw) && ((yl <=? y) && (y <? yl + th)) then ft (x - xl) (y - yl)
                  else if (x <? bw) && (y <? bh) then fb x y else default).
Proof. exact @paste2D_Repr. Qed.
Print Assumptions C19_paste2D_partial.

(** at a location so large that extent + location wraps, the bound test passes and the first write is stray *)
Theorem C19_paste2D_wraps_undefined :
  forall (A : Type) (bg tg : image A) bw bh tw th fb ft default,
  Repr bg bw bh fb -> Repr tg tw th ft -> (bw * bh < Z.to_nat (two64 - 1)) -> 2 <= tw <= bw -> 0 < th <= bh ->
  fits bw -> fits bh ->
  paste2D bg tg (Z.to_nat (two64 - 1)) 0 default = UB.
Proof.
  intros A bg tg bw bh tw th fb ft default Rb Rt B [T1 T2] [T3 T4] Fw Fh; unfold paste2D.
  rewrite (check2d_Repr _ _ _ _ Rb), (check2d_Repr _ _ _ _ Rt); cbn [bind].
  rewrite (get_width_Repr _ _ _ _ Rb), (get_height_Repr _ _ _ _ Rb); cbn [bind].
  rewrite (get_width_Repr _ _ _ _ Rt), (get_height_Repr _ _ _ _ Rt); cbn [bind].
  assert (U : uadd tw (Z.to_nat (two64 - 1)) = tw - 1).
  { unfold uadd, wn, w64; rewrite Z2Nat.id by (unfold two64; lia).
    replace (Z.of_nat tw + (two64 - 1))%Z with (Z.of_nat tw - 1 + 1 * two64)%Z by lia.
    rewrite Z.mod_add by (unfold two64; lia); unfold fits in Fw; rewrite Z.mod_small by lia; lia. }
  rewrite U; rewrite (uadd_fits th 0) by (unfold fits in *; lia).
  replace ((tw - 1 <=? bw) && (th + 0 <=? bh)) with true by lia.
  destruct th as [|th]; [lia|]; destruct tw as [|tw]; [lia|]; unfold for_range; cbn [seq for_list].
  rewrite (atu_Repr _ _ _ _ 0 0 Rt) by lia; cbn [bind].
  rewrite (uadd_fits (Z.to_nat (two64 - 1)) 0), (uadd_fits 0 0) by (unfold fits, two64; lia).
  destruct Rb as (D & L & _); unfold atu_set.
  rewrite loc_unchecked_ok by (rewrite D; reflexivity); cbn [bind]; rewrite D, off2.
  rewrite vset_UB by lia; reflexivity.
Qed.
Print Assumptions C19_paste2D_wraps_undefined.

Theorem C19_paste2D_refuted :
  exists (bg tg : image nat) fb ft xl yl, Repr bg 2 2 fb /\ Repr tg 2 1 ft /\ fits xl /\ fits yl /\
    paste2D bg tg xl yl 0 = UB.
Proof.
  assert (B : Repr (mkImage [2; 2] [1; 2; 3; 4]) 2 2 (fun x y => 1 + x + 2 * y)).
  { split; [reflexivity|]; split; [reflexivity|]; intros x y Hx Hy.
    destruct x as [|[|?]], y as [|[|?]]; try lia; reflexivity. }
  assert (T : Repr (mkImage [2; 1] [8; 9]) 2 1 (fun x y => 8 + x)).
  { split; [reflexivity|]; split; [reflexivity|]; intros x y Hx Hy.
    destruct x as [|[|?]], y as [|?]; try lia; reflexivity. }
  exists (mkImage [2; 2] [1; 2; 3; 4]), (mkImage [2; 1] [8; 9]), (fun x y => 1 + x + 2 * y), (fun x y => 8 + x),
    (Z.to_nat (two64 - 1)), 0.
  split; [exact B|]; split; [exact T|].
  split; [unfold fits; rewrite Z2Nat.id by (unfold two64; lia); lia|]; split; [unfold fits, two64; lia|].
  apply (C19_paste2D_wraps_undefined nat _ _ 2 2 2 1 _ _ 0 B T); unfold fits; try (unfold two64; lia).
Qed.
Print Assumptions C19_paste2D_refuted.

Example C19_example :
  paste2D (mkImage [2; 2] [1; 2; 3; 4]) (mkImage [2; 1] [8; 9]) 1 0 50 = Ok (mkImage [3; 2] [1; 8; 9; 3; 4; 50]) /\
  paste2D (mkImage [3; 2] [1; 2; 3; 4; 5; 6]) (mkImage [2; 1] [8; 9]) 1 1 50 = Ok (mkImage [3; 2] [1; 2; 3; 4; 8; 9]).
Proof. split; vm_compute; reflexivity. Qed.

(** C20 *)
Theorem C20_constant_padding :
  forall (A : Type) (d : A) (im : image A) w h f we he c,
  Repr im w h f -> fits (w + 2 * we) -> fits (h + 2 * he) ->
  exists o, constant_padding d im we he c = Ok o /\
    Repr o (w + 2 * we) (h + 2 * he)
      (fun x y => if (we <=? x) && (x <? we + w) && ((he <=? y) && (y <? he + h)) then f (x - we) (y - he) else c).
Proof. exact @constant_padding_Repr. Qed.
Print Assumptions C20_constant_padding.

Example C20_example :
  constant_padding 0 (mkImage [2; 1] [7; 8]) 1 1 5 = Ok (mkImage [4; 3] [5; 5; 5; 5; 5; 7; 8; 5; 5; 5; 5; 5]).
Proof. vm_compute; reflexivity. Qed.

(** C21: [clamp_src n e x = max 0 (min (x - e) (n - 1))] *)
Theorem C21_replicate_padding :
  forall (A : Type) (d : A) sg (im : image A) w h f we he c,
  sched_ok sg -> Repr im w h f -> 0 < w -> 0 < h -> fits (w + 2 * we) -> fits (h + 2 * he) ->
  exists o, replicate_padding d sg im we he c = Ok o /\
    Repr o (w + 2 * we) (h + 2 * he)
      (fun x y => f (Z.to_nat (Z.max 0 (Z.min (Z.of_nat x - Z.of_nat we) (Z.of_nat w - 1))))
                    (Z.to_nat (Z.max 0 (Z.min (Z.of_nat y - Z.of_nat he) (Z.of_nat h - 1))))).
Proof. intros A d sg im w h f we he c Hsg; exact (replicate_padding_Repr d sg Hsg im w h f we he c). Qed.
Print Assumptions C21_replicate_padding.

Example C21_example :
  replicate_padding 0 grid (mkImage [2; 1] [7; 8]) 2 1 5 =
  Ok (mkImage [6; 3] [7; 7; 7; 8; 8; 8; 7; 7; 7; 8; 8; 8; 7; 7; 7; 8; 8; 8]).
Proof. vm_compute; reflexivity. Qed.

(** C22: reflection p -> -p on the left and p -> 2 (n - 1) - p on the right of the image *)
Theorem C22_mirror_padding :
  forall (A : Type) (d : A) sg (im : image A) w h f we he c,
  sched_ok sg -> Repr im w h f -> we < w -> he < h -> fits (w + 2 * we) -> fits (h + 2 * he) ->
  exists o, mirror_padding d sg im we he c = Ok o /\
    Repr o (w + 2 * we) (h + 2 * he)
      (fun x y =>
         let reflect n p := (if p <? 0 then - p else if n <=? p then 2 * (n - 1) - p else p)%Z in
         f (Z.to_nat (reflect (Z.of_nat w) (Z.of_nat x - Z.of_nat we)%Z))
           (Z.to_nat (reflect (Z.of_nat h) (Z.of_nat y - Z.of_nat he)%Z))).
Proof. intros A d sg im w h f we he c Hsg; exact (mirror_padding_Repr d sg Hsg im w h f we he c). Qed.
Print Assumptions C22_mirror_padding.

(** a padding at least as wide or as high as the image throws *)
Theorem C22_too_large_throws :
  forall (A : Type) (d : A) sg (im : image A) w h f we he c,
  sched_ok sg -> Repr im w h f -> 0 < w -> 0 < h -> w <= we \/ h <= he -> fits (w + 2 * we) -> fits (h + 2 * he) ->
  (Z.of_nat w < 2 ^ 63)%Z -> (Z.of_nat we < 2 ^ 63)%Z -> (Z.of_nat h < 2 ^ 63)%Z -> (Z.of_nat he < 2 ^ 63)%Z ->
  mirror_padding d sg im we he c = Throw RuntimeError.
Proof. intros A d sg im w h f we he c Hsg; exact (mirror_padding_too_wide d sg Hsg im w h f we he c). Qed.
Print Assumptions C22_too_large_throws.

Example C22_example :
  mirror_padding 0 grid (mkImage [3; 2] [1; 2; 3; 4; 5; 6]) 1 1 50 =
  Ok (mkImage [5; 4] [5; 4; 5; 6; 5;  2; 1; 2; 3; 2;  5; 4; 5; 6; 5;  2; 1; 2; 3; 2]).
Proof. vm_compute; reflexivity. Qed.
