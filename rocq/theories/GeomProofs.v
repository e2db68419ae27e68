(** GeomProofs.v - specifications of the geometric operations through pixel functions. *)
From Verif Require Import Base ImageModel ImageFacts IndexModel ImageProofs GeomModel.
From Coq Require Import ZifyBool ZifyNat.

Lemma check2d_Repr {A} (im : image A) w h f : Repr im w h f -> check2d im = Ok tt.
Proof. intros R; unfold check2d; rewrite (get_dim_Repr _ _ _ _ R); reflexivity. Qed.

Lemma check2d_not2 {A} (im : image A) : length (dims im) <> 2 -> check2d im = Throw RuntimeError.
Proof.
  intros H; unfold check2d, get_dimensionality; destruct (Nat.eqb_spec (length (dims im)) 2); auto; lia.
Qed.

(** evaluate the dimension check and the extents of a represented image *)
Ltac dims2 R :=
  rewrite ?(check2d_Repr _ _ _ _ R); cbn [bind];
  rewrite ?(get_width_Repr _ _ _ _ R); cbn [bind]; rewrite ?(get_height_Repr _ _ _ _ R); cbn [bind].

Section Geom.
  Context {A : Type}.
  Variable d : A.
  Variable sg : nat -> nat -> list (nat * nat).
  Hypothesis Hsg : sched_ok sg.
  Implicit Types im : image A.

  Lemma transpose_policy_Repr im w h f :
    Repr im w h f -> exists o, transpose_policy d sg im = Ok o /\ Repr o h w (fun x y => f y x).
  Proof.
    intros R; unfold transpose_policy; dims2 R; dims2 R.
    apply (overlay_all _ _ (fun p => fst p) (fun p => snd p)).
    - reflexivity.
    - apply (Repr_sizes d h w).
    - intros p s Hp D L; apply (sched_in sg h w p Hsg) in Hp.
      rewrite (at_Repr _ _ _ _ _ _ R) by lia; cbn [bind]; apply (at_set2_ok s h w); tauto.
    - intros p Hp; apply (sched_in sg h w p Hsg) in Hp; lia.
    - intros x y Hx Hy; exists (x, y); split; auto; apply sched_in; auto.
  Qed.

  Lemma flip_horizontal_Repr im w h f :
    Repr im w h f -> exists o, flip_horizontal sg im = Ok o /\ Repr o w h (fun x y => f (w - 1 - x) y).
  Proof.
    intros R; unfold flip_horizontal; dims2 R; dims2 R.
    apply (overlay_all _ _ (fun p => w - snd p - 1) (fun p => fst p)).
    - apply R.
    - apply R.
    - intros p s Hp D L; apply (sched_in sg h w p Hsg) in Hp.
      rewrite (atu_Repr _ _ _ _ _ _ R) by lia; cbn [bind]; rewrite (atu_set2_ok s w h) by (auto; lia).
      do 3 f_equal; lia.
    - intros p Hp; apply (sched_in sg h w p Hsg) in Hp; lia.
    - intros x y Hx Hy; exists (y, w - 1 - x); split; [apply sched_in; simpl; auto; lia | simpl; lia].
  Qed.

  Lemma flip_vertical_Repr im w h f :
    Repr im w h f -> exists o, flip_vertical sg im = Ok o /\ Repr o w h (fun x y => f x (h - 1 - y)).
  Proof.
    intros R; unfold flip_vertical; dims2 R; dims2 R.
    apply (overlay_all _ _ (fun p => snd p) (fun p => h - fst p - 1)).
    - apply R.
    - apply R.
    - intros p s Hp D L; apply (sched_in sg h w p Hsg) in Hp.
      rewrite (atu_Repr _ _ _ _ _ _ R) by lia; cbn [bind]; rewrite (atu_set2_ok s w h) by (auto; lia).
      do 3 f_equal; lia.
    - intros p Hp; apply (sched_in sg h w p Hsg) in Hp; lia.
    - intros x y Hx Hy; exists (h - 1 - y, x); split; [apply sched_in; simpl; auto; lia | simpl; lia].
  Qed.

  Lemma flip_horizontal_vertical_Repr im w h f :
    Repr im w h f ->
    exists o, flip_horizontal_vertical sg im = Ok o /\ Repr o w h (fun x y => f (w - 1 - x) (h - 1 - y)).
  Proof.
    intros R; unfold flip_horizontal_vertical; dims2 R; dims2 R.
    apply (overlay_all _ _ (fun p => w - snd p - 1) (fun p => h - fst p - 1)).
    - apply R.
    - apply R.
    - intros p s Hp D L; apply (sched_in sg h w p Hsg) in Hp.
      rewrite (atu_Repr _ _ _ _ _ _ R) by lia; cbn [bind]; rewrite (atu_set2_ok s w h) by (auto; lia).
      do 3 f_equal; lia.
    - intros p Hp; apply (sched_in sg h w p Hsg) in Hp; lia.
    - intros x y Hx Hy; exists (h - 1 - y, w - 1 - x); split; [apply sched_in; simpl; auto; lia | simpl; lia].
  Qed.

  Lemma rotate_quarter_Repr im w h f :
    Repr im w h f -> exists o, rotate_quarter d im = Ok o /\ Repr o h w (fun x y => f y (h - 1 - x)).
  Proof.
    intros R; unfold rotate_quarter; dims2 R; dims2 R; rewrite for_range_nested.
    apply (overlay_all _ _ (fun p => h - fst p - 1) (fun p => snd p)).
    - reflexivity.
    - apply (Repr_sizes d h w).
    - intros p s Hp D L; apply in_grid in Hp.
      rewrite (at_Repr _ _ _ _ _ _ R) by lia; cbn [bind]; rewrite (at_set2_ok s h w) by (auto; lia).
      do 3 f_equal; lia.
    - intros p Hp; apply in_grid in Hp; lia.
    - intros x y Hx Hy; exists (h - 1 - x, y); split; [apply in_grid; simpl; lia | simpl; lia].
  Qed.

  Lemma subimage2_Repr im w h f x1 x2 y1 y2 :
    Repr im w h f -> x1 <= x2 -> x2 < w -> y1 <= y2 -> y2 < h ->
    exists o, subimage2 d sg im x1 x2 y1 y2 = Ok o /\
              Repr o (x2 - x1 + 1) (y2 - y1 + 1) (fun x y => f (x1 + x) (y1 + y)).
  Proof.
    intros R Hx Hx2 Hy Hy2; unfold subimage2.
    destruct (Nat.ltb_spec x2 x1); [lia|]; destruct (Nat.ltb_spec y2 y1); [lia|].
    dims2 R.
    replace ((w <? x1) || (w <? x2)) with false by lia; dims2 R.
    replace ((h <? y1) || (h <? y2)) with false by lia.
    apply (overlay_all _ _ (fun p => snd p) (fun p => fst p)).
    - reflexivity.
    - apply (Repr_sizes d).
    - intros p s Hp D L; apply (sched_in sg _ _ p Hsg) in Hp.
      rewrite (atu_Repr _ _ _ _ _ _ R) by lia; cbn [bind]; apply (atu_set2_ok s _ _ _ _ _ D L); lia.
    - intros p Hp; apply (sched_in sg _ _ p Hsg) in Hp; lia.
    - intros x y Hx' Hy'; exists (y, x); split; [apply sched_in; simpl; auto; lia | simpl; lia].
  Qed.

  (** what subimage2 rejects *)
  Lemma subimage2_throws im w h f x1 x2 y1 y2 :
    Repr im w h f ->
    x2 < x1 \/ y2 < y1 \/ w < x1 \/ w < x2 \/ h < y1 \/ h < y2 ->
    subimage2 d sg im x1 x2 y1 y2 = Throw RuntimeError.
  Proof.
    intros R H; unfold subimage2.
    destruct (Nat.ltb_spec x2 x1); auto; destruct (Nat.ltb_spec y2 y1); auto; dims2 R.
    destruct ((w <? x1) || (w <? x2)) eqn:E; auto; dims2 R.
    replace ((h <? y1) || (h <? y2)) with true by lia; reflexivity.
  Qed.

  (** ** concatenation *)
  Lemma concat_horizontal2_Repr im1 im2 w1 w2 h f1 f2 :
    Repr im1 w1 h f1 -> Repr im2 w2 h f2 ->
    exists o, concat_horizontal2 d im1 im2 = Ok o /\
              Repr o (w1 + w2) h (fun x y => if x <? w1 then f1 x y else f2 (x - w1) y).
  Proof.
    intros R1 R2; unfold concat_horizontal2.
    rewrite (get_height_Repr _ _ _ _ R1); cbn [bind]; rewrite (get_height_Repr _ _ _ _ R2); cbn [bind].
    rewrite Nat.eqb_refl; cbn [negb].
    rewrite (get_width_Repr _ _ _ _ R1); cbn [bind]; rewrite (get_width_Repr _ _ _ _ R2); cbn [bind].
    rewrite for_range_nested.
    destruct (overlay (grid h w1) (fun p s => let* v := at_ im1 [snd p; fst p] in at_set s [snd p; fst p] v)
                (fun p => snd p) (fun p => fst p) (image_sizes d [w1 + w2; h]) (w1 + w2) h (fun _ _ => d)
                (fun x y => if x <? w1 then f1 x y else d)) as (o1 & E1 & Ro1).
    - apply (Repr_sizes d).
    - intros p s Hp D L; apply in_grid in Hp.
      rewrite (at_Repr _ _ _ _ _ _ R1) by lia; cbn [bind].
      rewrite (at_set2_ok s _ _ _ _ _ D L) by lia.
      destruct (Nat.ltb_spec (snd p) w1); [reflexivity | lia].
    - intros p Hp; apply in_grid in Hp; lia.
    - intros x y Hx Hy HN; destruct (Nat.ltb_spec x w1); auto.
      exfalso; apply (HN (y, x)); auto; apply in_grid; auto.
    - rewrite E1; cbn [bind]; rewrite for_range_nested.
      apply (overlay (grid h w2) _ (fun p => w1 + snd p) (fun p => fst p) o1 (w1 + w2) h
               (fun x y => if x <? w1 then f1 x y else d)); auto.
      + intros p s Hp D L; apply in_grid in Hp.
        rewrite (at_Repr _ _ _ _ _ _ R2) by lia; cbn [bind].
        rewrite (at_set2_ok s _ _ _ _ _ D L) by lia.
        destruct (Nat.ltb_spec (w1 + snd p) w1); [lia|]; do 3 f_equal; lia.
      + intros p Hp; apply in_grid in Hp; lia.
      + intros x y Hx Hy HN; destruct (Nat.ltb_spec x w1); auto.
        exfalso; apply (HN (y, x - w1)); simpl; try lia; apply in_grid; simpl; lia.
  Qed.

  Lemma concat_horizontal2_throws im1 im2 w1 w2 h1 h2 f1 f2 :
    Repr im1 w1 h1 f1 -> Repr im2 w2 h2 f2 -> h1 <> h2 ->
    concat_horizontal2 d im1 im2 = Throw RuntimeError.
  Proof.
    intros R1 R2 N; unfold concat_horizontal2.
    rewrite (get_height_Repr _ _ _ _ R1); cbn [bind]; rewrite (get_height_Repr _ _ _ _ R2); cbn [bind].
    destruct (Nat.eqb_spec h1 h2); [lia | reflexivity].
  Qed.

  Lemma concat_vertical2_Repr im1 im2 w h1 h2 f1 f2 :
    Repr im1 w h1 f1 -> Repr im2 w h2 f2 ->
    exists o, concat_vertical2 d im1 im2 = Ok o /\
              Repr o w (h1 + h2) (fun x y => if y <? h1 then f1 x y else f2 x (y - h1)).
  Proof.
    intros R1 R2; unfold concat_vertical2.
    rewrite (get_width_Repr _ _ _ _ R1); cbn [bind]; rewrite (get_width_Repr _ _ _ _ R2); cbn [bind].
    rewrite Nat.eqb_refl; cbn [negb].
    rewrite (get_height_Repr _ _ _ _ R1); cbn [bind]; rewrite (get_height_Repr _ _ _ _ R2); cbn [bind].
    rewrite for_range_nested.
    destruct (overlay (grid h1 w) (fun p s => let* v := at_ im1 [snd p; fst p] in at_set s [snd p; fst p] v)
                (fun p => snd p) (fun p => fst p) (image_sizes d [w; h1 + h2]) w (h1 + h2) (fun _ _ => d)
                (fun x y => if y <? h1 then f1 x y else d)) as (o1 & E1 & Ro1).
    - apply (Repr_sizes d).
    - intros p s Hp D L; apply in_grid in Hp.
      rewrite (at_Repr _ _ _ _ _ _ R1) by lia; cbn [bind].
      rewrite (at_set2_ok s _ _ _ _ _ D L) by lia.
      destruct (Nat.ltb_spec (fst p) h1); [reflexivity | lia].
    - intros p Hp; apply in_grid in Hp; lia.
    - intros x y Hx Hy HN; destruct (Nat.ltb_spec y h1); auto.
      exfalso; apply (HN (y, x)); auto; apply in_grid; auto.
    - rewrite E1; cbn [bind]; rewrite for_range_nested.
      apply (overlay (grid h2 w) _ (fun p => snd p) (fun p => h1 + fst p) o1 w (h1 + h2)
               (fun x y => if y <? h1 then f1 x y else d)); auto.
      + intros p s Hp D L; apply in_grid in Hp.
        rewrite (at_Repr _ _ _ _ _ _ R2) by lia; cbn [bind].
        rewrite (at_set2_ok s _ _ _ _ _ D L) by lia.
        destruct (Nat.ltb_spec (h1 + fst p) h1); [lia|]; do 3 f_equal; lia.
      + intros p Hp; apply in_grid in Hp; lia.
      + intros x y Hx Hy HN; destruct (Nat.ltb_spec y h1); auto.
        exfalso; apply (HN (y - h1, x)); simpl; try lia; apply in_grid; simpl; lia.
  Qed.

  Lemma concat_vertical2_throws im1 im2 w1 w2 h1 h2 f1 f2 :
    Repr im1 w1 h1 f1 -> Repr im2 w2 h2 f2 -> w1 <> w2 ->
    concat_vertical2 d im1 im2 = Throw RuntimeError.
  Proof.
    intros R1 R2 N; unfold concat_vertical2.
    rewrite (get_width_Repr _ _ _ _ R1); cbn [bind]; rewrite (get_width_Repr _ _ _ _ R2); cbn [bind].
    destruct (Nat.eqb_spec w1 w2); [lia | reflexivity].
  Qed.

  (** lists of images: [(image, extent along the axis, pixel function)] *)
  Fixpoint hcat_fun (l : list (nat * (nat -> nat -> A))) (x y : nat) : A :=
    match l with
    | [] => d
    | (w, f) :: l' => if x <? w then f x y else hcat_fun l' (x - w) y
    end.
  Fixpoint vcat_fun (l : list (nat * (nat -> nat -> A))) (x y : nat) : A :=
    match l with
    | [] => d
    | (h, f) :: l' => if y <? h then f x y else vcat_fun l' x (y - h)
    end.
  Definition sum_ext (l : list (nat * (nat -> nat -> A))) : nat := fold_right (fun p n => fst p + n) 0 l.

  Lemma concat_horizontal_Repr im w h f ims specs :
    Repr im w h f ->
    Forall2 (fun im p => Repr im (fst p) h (snd p)) ims specs ->
    exists o, concat_horizontal d (im :: ims) = Ok o /\
              Repr o (sum_ext ((w, f) :: specs)) h (hcat_fun ((w, f) :: specs)).
  Proof.
    intros R HF; revert im w f R; induction HF as [|im1 [w1 f1] ims specs R1 HF IH]; intros im w f R.
    - exists im; split; [reflexivity|]; simpl; rewrite Nat.add_0_r; eapply Repr_ext; eauto.
      intros x y Hx Hy; destruct (Nat.ltb_spec x w); [reflexivity | lia].
    - cbn [concat_horizontal for_list]; simpl in R1.
      destruct (concat_horizontal2_Repr im im1 w w1 h f f1 R R1) as (o1 & E1 & Ro1); rewrite E1; cbn [bind].
      destruct (IH o1 _ _ Ro1) as (o & E & Ro); exists o; split; [exact E|].
      replace (sum_ext ((w, f) :: (w1, f1) :: specs))
        with (sum_ext ((w + w1, fun x y => if x <? w then f x y else f1 (x - w) y) :: specs))
        by (simpl; lia).
      eapply Repr_ext; eauto; intros x y Hx Hy; simpl.
      destruct (Nat.ltb_spec x w), (Nat.ltb_spec x (w + w1)), (Nat.ltb_spec (x - w) w1); try lia; auto.
      f_equal; lia.
  Qed.

  Lemma concat_vertical_Repr im w h f ims specs :
    Repr im w h f ->
    Forall2 (fun im p => Repr im w (fst p) (snd p)) ims specs ->
    exists o, concat_vertical d (im :: ims) = Ok o /\
              Repr o w (sum_ext ((h, f) :: specs)) (vcat_fun ((h, f) :: specs)).
  Proof.
    intros R HF; revert im h f R; induction HF as [|im1 [h1 f1] ims specs R1 HF IH]; intros im h f R.
    - exists im; split; [reflexivity|]; simpl; rewrite Nat.add_0_r; eapply Repr_ext; eauto.
      intros x y Hx Hy; destruct (Nat.ltb_spec y h); [reflexivity | lia].
    - cbn [concat_vertical for_list]; simpl in R1.
      destruct (concat_vertical2_Repr im im1 w h h1 f f1 R R1) as (o1 & E1 & Ro1); rewrite E1; cbn [bind].
      destruct (IH o1 _ _ Ro1) as (o & E & Ro); exists o; split; [exact E|].
      replace (sum_ext ((h, f) :: (h1, f1) :: specs))
        with (sum_ext ((h + h1, fun x y => if y <? h then f x y else f1 x (y - h)) :: specs))
        by (simpl; lia).
      eapply Repr_ext; eauto; intros x y Hx Hy; simpl.
      destruct (Nat.ltb_spec y h), (Nat.ltb_spec y (h + h1)), (Nat.ltb_spec (y - h) h1); try lia; auto.
      f_equal; lia.
  Qed.

  (** ** paste2D *)
  Definition inrect (px py w h x y : nat) : bool :=
    (px <=? x) && (x <? px + w) && ((py <=? y) && (y <? py + h)).

  Lemma paste_loop (bg tg : image A) bw bh tw th fb ft xl yl :
    Repr bg bw bh fb -> Repr tg tw th ft -> tw + xl <= bw -> th + yl <= bh -> fits bw -> fits bh ->
    exists o, for_range th (fun y s => for_range tw (fun x s =>
                let* v := atu tg [x; y] in atu_set s [uadd xl x; uadd yl y] v) s) bg = Ok o /\
              Repr o bw bh (fun x y => if inrect xl yl tw th x y then ft (x - xl) (y - yl) else fb x y).
  Proof.
    intros Rb Rt Hw Hh Fw Fh; rewrite for_range_nested.
    apply (overlay _ _ (fun p => xl + snd p) (fun p => yl + fst p) bg bw bh fb); auto.
    - intros p s Hp D L; apply in_grid in Hp; unfold fits in *.
      rewrite !uadd_fits by (unfold fits; lia).
      rewrite (atu_Repr _ _ _ _ _ _ Rt) by lia; cbn [bind].
      rewrite (atu_set2_ok s _ _ _ _ _ D L) by lia.
      replace (inrect xl yl tw th (xl + snd p) (yl + fst p)) with true by (unfold inrect; lia).
      do 3 f_equal; lia.
    - intros p Hp; apply in_grid in Hp; lia.
    - intros x y Hx Hy HN; destruct (inrect xl yl tw th x y) eqn:E; auto; unfold inrect in E.
      exfalso; apply (HN (y - yl, x - xl)); simpl; try lia; apply in_grid; simpl; lia.
  Qed.

  Lemma paste2D_Repr (bg tg : image A) bw bh tw th fb ft xl yl default :
    Repr bg bw bh fb -> Repr tg tw th ft ->
    fits bw -> fits bh -> fits (tw + xl) -> fits (th + yl) ->
    (* the enlarged canvas is not empty *)
    (tw + xl <= bw /\ th + yl <= bh \/ 0 < Nat.max bw (tw + xl) * Nat.max bh (th + yl)) ->
    exists o, paste2D bg tg xl yl default = Ok o /\
      Repr o (Nat.max bw (tw + xl)) (Nat.max bh (th + yl))
        (fun x y => if inrect xl yl tw th x y then ft (x - xl) (y - yl)
                    else if (x <? bw) && (y <? bh) then fb x y else default).
  Proof.
    intros Rb Rt Fbw Fbh Ftw Fth NE; unfold paste2D; dims2 Rb; dims2 Rt; dims2 Rb; dims2 Rt.
    rewrite !uadd_fits by assumption.
    destruct ((tw + xl <=? bw) && (th + yl <=? bh)) eqn:E.
    - destruct (paste_loop bg tg bw bh tw th fb ft xl yl Rb Rt) as (o & Eo & Ro); try lia; auto.
      exists o; split; auto.
      rewrite !Nat.max_l by lia; eapply Repr_ext; eauto; intros x y Hx Hy; cbv beta.
      replace ((x <? bw) && (y <? bh)) with true by lia; reflexivity.
    - replace (if tw + xl <=? bw then bw else tw + xl) with (Nat.max bw (tw + xl))
        by (destruct (Nat.leb_spec (tw + xl) bw); lia).
      replace (if th + yl <=? bh then bh else th + yl) with (Nat.max bh (th + yl))
        by (destruct (Nat.leb_spec (th + yl) bh); lia).
      set (W := Nat.max bw (tw + xl)) in *; set (H := Nat.max bh (th + yl)) in *.
      assert (Fit : fits W /\ fits H) by (unfold W, H, fits in *; lia).
      assert (P : 0 < W * H) by (unfold W, H in *; lia).
      assert (HW : bw <= W /\ tw + xl <= W) by (unfold W; lia).
      assert (HH : bh <= H /\ th + yl <= H) by (unfold H; lia).
      clearbody W H.
      assert (EI : image_data (repeat default (W * H)) [W; H] = Ok (mkImage [W; H] (repeat default (W * H)))).
      { destruct (ctor_data_wf (repeat default (W * H)) [W; H]) as [C _].
        destruct C as (i & Ei & Di & Pi & _).
        - intros C; apply (f_equal (@length A)) in C; rewrite repeat_length in C; simpl in C; lia.
        - rewrite repeat_length, prodn2; reflexivity.
        - rewrite Ei; destruct i; simpl in *; congruence. }
      rewrite EI; cbn [bind]; rewrite for_range_nested.
      destruct (overlay (grid bh bw) (fun p s => let* v := atu bg [snd p; fst p] in atu_set s [snd p; fst p] v)
                  (fun p => snd p) (fun p => fst p) (mkImage [W; H] (repeat default (W * H))) W H
                  (fun _ _ => default) (fun x y => if (x <? bw) && (y <? bh) then fb x y else default))
        as (o1 & E1 & Ro1).
      + pose proof (Repr_sizes default W H) as R0; unfold image_sizes in R0; rewrite prodn2 in R0; exact R0.
      + intros p s Hp D L; apply in_grid in Hp.
        rewrite (atu_Repr _ _ _ _ _ _ Rb) by lia; cbn [bind].
        rewrite (atu_set2_ok s _ _ _ _ _ D L) by lia.
        replace ((snd p <? bw) && (fst p <? bh)) with true by lia; reflexivity.
      + intros p Hp; apply in_grid in Hp; lia.
      + intros x y Hx Hy HN; destruct ((x <? bw) && (y <? bh)) eqn:E'; auto.
        exfalso; apply (HN (y, x)); auto; apply in_grid; simpl; lia.
      + rewrite E1; cbn [bind]; apply paste_loop; auto; try tauto; lia.
  Qed.
End Geom.

Lemma transpose_is_policy {A} (d : A) im : transpose d im = transpose_policy d grid im.
Proof.
  unfold transpose, transpose_policy; destruct (check2d im); cbn [bind]; auto.
  destruct (get_width im); cbn [bind]; auto; destruct (get_height im); cbn [bind]; auto.
  apply for_range_nested.
Qed.

Lemma transpose_Repr {A} (d : A) im w h f :
  Repr im w h f -> exists o, transpose d im = Ok o /\ Repr o h w (fun x y => f y x).
Proof. intros R; rewrite transpose_is_policy; apply transpose_policy_Repr; [apply sched_ok_grid | exact R]. Qed.
