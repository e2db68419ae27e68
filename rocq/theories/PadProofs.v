(** PadProofs.v - paddings, split/concat, subimage, resize. *)
From Verif Require Import Base ImageModel ImageFacts IndexModel ImageProofs GeomModel GeomProofs.
From Coq Require Import ZifyBool ZifyNat.
Ltac Zify.zify_post_hook ::= Z.div_mod_to_equations.

Lemma set_all_Repr {A} (im : image A) w h f c : Repr im w h f -> Repr (set_all_value im c) w h (fun _ _ => c).
Proof.
  intros (D & L & H); unfold set_all_value; split; [exact D|]; cbn [pix]; rewrite map_length; split; auto.
  intros x y Hx Hy; rewrite (nth_error_map_some _ _ _ _ (H x y Hx Hy)); reflexivity.
Qed.

(** Specification of the paddings: the padded pixel at position [x] along an axis of length [n] padded by
    [e] comes from source position [x - e], folded back into [0, n). *)
Definition reflectZ (n p : Z) : Z := (if p <? 0 then - p else if n <=? p then 2 * (n - 1) - p else p)%Z.
Definition clampZ (n p : Z) : Z := Z.max 0 (Z.min p (n - 1)).
Definition refl_src (n e x : nat) : nat := Z.to_nat (reflectZ (Z.of_nat n) (Z.of_nat x - Z.of_nat e)).
Definition clamp_src (n e x : nat) : nat := Z.to_nat (clampZ (Z.of_nat n) (Z.of_nat x - Z.of_nat e)).

Ltac srcs :=
  unfold refl_src, reflectZ, clamp_src, clampZ;
  repeat match goal with |- context [if ?b then _ else _] => destruct b eqn:? end; lia.

Section Pad.
  Context {A : Type}.
  Variable d : A.
  Variable sg : nat -> nat -> list (nat * nat).
  Hypothesis Hsg : sched_ok sg.
  Implicit Types im o : image A.

  Lemma constant_padding_Repr im w h f we he c :
    Repr im w h f -> fits (w + 2 * we) -> fits (h + 2 * he) ->
    exists o, constant_padding d im we he c = Ok o /\
      Repr o (w + 2 * we) (h + 2 * he)
        (fun x y => if inrect we he w h x y then f (x - we) (y - he) else c).
  Proof.
    intros R Fw Fh; unfold constant_padding; dims2 R; dims2 R.
    pose proof (set_all_Repr _ _ _ _ c (Repr_sizes d (w + 2 * we) (h + 2 * he))) as R0.
    destruct (paste2D_Repr _ _ _ _ _ _ _ _ we he c R0 R) as (o & E & Ro); auto;
      try (unfold fits in *; lia).
    exists o; split; auto.
    rewrite !Nat.max_l in Ro by lia; eapply Repr_ext; eauto; intros x y Hx Hy; cbv beta.
    destruct (inrect we he w h x y); auto; destruct ((x <? w + 2 * we) && (y <? h + 2 * he)); auto.
  Qed.

  (** a canvas that already shows the target picture [T] on the region [S] *)
  Definition Good (W H : nat) (T : nat -> nat -> A) (S : nat -> nat -> bool) o : Prop :=
    exists g, Repr o W H g /\ forall x y, x < W -> y < H -> S x y = true -> g x y = T x y.

  Lemma Good_sub W H T S S' o :
    Good W H T S o -> (forall x y, x < W -> y < H -> S' x y = true -> S x y = true) -> Good W H T S' o.
  Proof. intros (g & R & HG) HS; exists g; split; auto. Qed.

  Lemma Good_paste W H T S o tg tw th ft xl yl c :
    Good W H T S o -> Repr tg tw th ft -> tw + xl <= W -> th + yl <= H -> fits W -> fits H ->
    (forall x y, x < tw -> y < th -> ft x y = T (xl + x) (yl + y)) ->
    exists o', paste2D o tg xl yl c = Ok o' /\
               Good W H T (fun x y => S x y || inrect xl yl tw th x y) o'.
  Proof.
    intros (g & R & HG) Rt Hw Hh FW FH HT.
    destruct (paste2D_Repr _ _ _ _ _ _ _ _ xl yl c R Rt) as (o' & E & Ro); auto;
      try (unfold fits in *; lia).
    exists o'; split; auto; eexists; split; [rewrite !Nat.max_l in Ro by lia; exact Ro|].
    intros x y Hx Hy HS; cbv beta in *.
    destruct (inrect xl yl tw th x y) eqn:E'.
    - unfold inrect in E'; rewrite HT by lia; f_equal; lia.
    - replace ((x <? W) && (y <? H)) with true by lia; apply HG; auto.
      rewrite orb_false_r in HS; exact HS.
  Qed.

  Lemma Good_all W H T S o :
    Good W H T S o -> (forall x y, x < W -> y < H -> S x y = true) -> Repr o W H T.
  Proof. intros (g & R & HG) HS; eapply Repr_ext; eauto. Qed.

  (** loops of pastes *)
  Lemma Good_loop W H T (n : nat) (a : nat) (body : nat -> image A -> res (image A)) (S : nat -> nat -> bool)
        (r : nat -> nat -> nat -> bool) o :
    Good W H T S o ->
    (forall i S' o, i < n -> Good W H T S' o ->
        exists o', body (a + i) o = Ok o' /\ Good W H T (fun x y => S' x y || r i x y) o') ->
    exists o', for_list (seq a n) body o = Ok o' /\
               Good W H T (fun x y => S x y || existsb (fun i => r i x y) (seq 0 n)) o'.
  Proof.
    intros HG Hb; rewrite <- map_add_seq, for_list_map; fold (for_range n (fun i => body (a + i)) o).
    destruct (for_range_inv n (fun i o => Good W H T (fun x y => S x y || existsb (fun i => r i x y) (seq 0 i)) o)
                (fun i => body (a + i)) o) as (o' & E & HG').
    - eapply Good_sub; eauto; simpl; intros; rewrite orb_false_r in *; auto.
    - intros i s Hi Hs; destruct (Hb i _ _ Hi Hs) as (s' & E & Hs'); exists s'; split; auto.
      eapply Good_sub; eauto; intros x y Hx Hy; rewrite seq_S, existsb_app; simpl.
      rewrite !orb_false_r, <- !orb_assoc; auto.
    - exists o'; split; auto.
  Qed.

  Lemma usub1 n : 0 < n -> fits n -> usub n 1 = n - 1.
  Proof. intros; apply usub_le; auto; lia. Qed.

  Lemma usub_usub1 n e : e < n -> fits n -> usub (usub n e) 1 = n - e - 1.
  Proof. intros H F; rewrite (usub_le n e) by (auto; lia); apply usub_le; unfold fits in *; lia. Qed.

  Lemma uadd_usub1 n e : 0 < n -> fits (n + 2 * e) -> usub (uadd n e) 1 = n + e - 1.
  Proof.
    intros H F; rewrite uadd_fits by (unfold fits in *; lia); apply usub_le; unfold fits in *; lia.
  Qed.

  Lemma mirror_padding_Repr im w h f we he c :
    Repr im w h f -> we < w -> he < h -> fits (w + 2 * we) -> fits (h + 2 * he) ->
    exists o, mirror_padding d sg im we he c = Ok o /\
      Repr o (w + 2 * we) (h + 2 * he) (fun x y => f (refl_src w we x) (refl_src h he y)).
  Proof.
    intros R Hw Hh Fw Fh; unfold mirror_padding; dims2 R; dims2 R.
    rewrite (usub1 w), (usub1 h), (usub_usub1 w we), (usub_usub1 h he), (uadd_usub1 w we), (uadd_usub1 h he)
      by (unfold fits in *; lia).
    destruct (constant_padding_Repr im w h f we he c R Fw Fh) as (o0 & E0 & R0); rewrite E0; cbn [bind].
    assert (HG : Good (w + 2 * we) (h + 2 * he) (fun x y => f (refl_src w we x) (refl_src h he y))
                   (inrect we he w h) o0).
    { eexists; split; [exact R0|]; intros x y Hx Hy E; cbv beta; rewrite E.
      unfold inrect in E; f_equal; srcs. }
    clear R0 E0.
    destruct (flip_vertical_Repr sg Hsg im w h f R) as (fv & Ev & Rv); rewrite Ev; cbn [bind].
    destruct (subimage2_Repr d sg Hsg fv w h _ 0 (w - 1) (h - he - 1) (h - 1) Rv) as (p1 & E1 & R1); try lia.
    rewrite E1; cbn [bind]; clear E1.
    eapply Good_paste in HG; [destruct HG as (o1 & E & HG); rewrite E; cbn [bind]; clear E
      | exact R1 | lia | lia | exact Fw | exact Fh
      | intros x y Hx Hy; cbv beta; f_equal; srcs].
    destruct (subimage2_Repr d sg Hsg fv w h _ 0 (w - 1) 0 he Rv) as (p2 & E2 & R2); try lia.
    rewrite E2; cbn [bind]; clear E2.
    eapply Good_paste in HG; [destruct HG as (o2 & E & HG); rewrite E; cbn [bind]; clear E
      | exact R2 | lia | lia | exact Fw | exact Fh
      | intros x y Hx Hy; cbv beta; f_equal; srcs].
    destruct (flip_horizontal_Repr sg Hsg im w h f R) as (fh & Eh & Rh); rewrite Eh; cbn [bind].
    destruct (subimage2_Repr d sg Hsg fh w h _ (w - we - 1) (w - 1) 0 (h - 1) Rh) as (p3 & E3 & R3); try lia.
    rewrite E3; cbn [bind]; clear E3.
    eapply Good_paste in HG; [destruct HG as (o3 & E & HG); rewrite E; cbn [bind]; clear E
      | exact R3 | lia | lia | exact Fw | exact Fh
      | intros x y Hx Hy; cbv beta; f_equal; srcs].
    destruct (subimage2_Repr d sg Hsg fh w h _ 0 we 0 (h - 1) Rh) as (p4 & E4 & R4); try lia.
    rewrite E4; cbn [bind]; clear E4.
    eapply Good_paste in HG; [destruct HG as (o4 & E & HG); rewrite E; cbn [bind]; clear E
      | exact R4 | lia | lia | exact Fw | exact Fh
      | intros x y Hx Hy; cbv beta; f_equal; srcs].
    destruct (flip_horizontal_vertical_Repr sg Hsg im w h f R) as (fhv & Ehv & Rhv); rewrite Ehv; cbn [bind].
    destruct (subimage2_Repr d sg Hsg fhv w h _ (w - we - 1) (w - 1) (h - he - 1) (h - 1) Rhv)
      as (p5 & E5 & R5); try lia.
    rewrite E5; cbn [bind]; clear E5.
    eapply Good_paste in HG; [destruct HG as (o5 & E & HG); rewrite E; cbn [bind]; clear E
      | exact R5 | lia | lia | exact Fw | exact Fh
      | intros x y Hx Hy; cbv beta; f_equal; srcs].
    destruct (subimage2_Repr d sg Hsg fhv w h _ 0 we (h - he - 1) (h - 1) Rhv) as (p6 & E6 & R6); try lia.
    rewrite E6; cbn [bind]; clear E6.
    eapply Good_paste in HG; [destruct HG as (o6 & E & HG); rewrite E; cbn [bind]; clear E
      | exact R6 | lia | lia | exact Fw | exact Fh
      | intros x y Hx Hy; cbv beta; f_equal; srcs].
    destruct (subimage2_Repr d sg Hsg fhv w h _ (w - we - 1) (w - 1) 0 he Rhv) as (p7 & E7 & R7); try lia.
    rewrite E7; cbn [bind]; clear E7.
    eapply Good_paste in HG; [destruct HG as (o7 & E & HG); rewrite E; cbn [bind]; clear E
      | exact R7 | lia | lia | exact Fw | exact Fh
      | intros x y Hx Hy; cbv beta; f_equal; srcs].
    destruct (subimage2_Repr d sg Hsg fhv w h _ 0 we 0 he Rhv) as (p8 & E8 & R8); try lia.
    rewrite E8; cbn [bind]; clear E8.
    eapply Good_paste in HG; [destruct HG as (o8 & E & HG); rewrite E; clear E
      | exact R8 | lia | lia | exact Fw | exact Fh
      | intros x y Hx Hy; cbv beta; f_equal; srcs].
    exists o8; split; auto; eapply Good_all; eauto.
    clear - Hw Hh; intros x y Hx Hy; cbv beta.
    destruct (Nat.lt_ge_cases x we) as [X1|X1]; [|destruct (Nat.lt_ge_cases x (we + w)) as [X2|X2]];
    (destruct (Nat.lt_ge_cases y he) as [Y1|Y1]; [|destruct (Nat.lt_ge_cases y (he + h)) as [Y2|Y2]]);
      repeat rewrite orb_true_iff.
    - left; left; left; right; unfold inrect; lia.
    - left; left; left; left; left; right; unfold inrect; lia.
    - left; right; unfold inrect; lia.
    - left; left; left; left; left; left; left; right; unfold inrect; lia.
    - left; left; left; left; left; left; left; left; unfold inrect; lia.
    - left; left; left; left; left; left; right; unfold inrect; lia.
    - left; left; right; unfold inrect; lia.
    - left; left; left; left; right; unfold inrect; lia.
    - right; unfold inrect; lia.
  Qed.

  (** a padding as wide or as high as the image is rejected *)
  Lemma too_wide n e : 0 < n -> n <= e -> fits (n + 2 * e) -> (Z.of_nat n < 2 ^ 63)%Z -> (Z.of_nat e < 2 ^ 63)%Z ->
    n < usub (usub n e) 1.
  Proof.
    intros P L F B1 B2.
    assert (E : Z.of_nat (usub (usub n e) 1) = (two64 + Z.of_nat n - Z.of_nat e - 1)%Z \/
                (n = e /\ Z.of_nat (usub (usub n e) 1) = (two64 - 1)%Z)).
    { destruct (Nat.eq_dec n e) as [<-|N].
      - right; split; auto; rewrite (usub_le n n) by (unfold fits in *; lia).
        replace (n - n) with 0 by lia; rewrite usub_gt by (unfold fits, two64; lia); lia.
      - left; pose proof (usub_gt n e) as G.
        assert (Hu : Z.of_nat (usub n e) = (two64 + Z.of_nat n - Z.of_nat e)%Z)
          by (apply G; unfold fits in *; lia).
        rewrite (usub_le (usub n e) 1); unfold fits, two64 in *; lia. }
    unfold two64 in *; destruct E as [E|[_ E]]; lia.
  Qed.

  Lemma mirror_padding_too_wide im w h f we he c :
    Repr im w h f -> 0 < w -> 0 < h -> w <= we \/ h <= he -> fits (w + 2 * we) -> fits (h + 2 * he) ->
    (Z.of_nat w < 2 ^ 63)%Z -> (Z.of_nat we < 2 ^ 63)%Z -> (Z.of_nat h < 2 ^ 63)%Z -> (Z.of_nat he < 2 ^ 63)%Z ->
    mirror_padding d sg im we he c = Throw RuntimeError.
  Proof.
    intros R Pw Ph HL Fw Fh B1 B2 B3 B4; unfold mirror_padding; dims2 R; dims2 R.
    destruct (constant_padding_Repr im w h f we he c R Fw Fh) as (o0 & E0 & R0); rewrite E0; cbn [bind].
    destruct (flip_vertical_Repr sg Hsg im w h f R) as (fv & Ev & Rv); rewrite Ev; cbn [bind].
    destruct (Nat.lt_ge_cases he h) as [Lh|Gh].
    2:{ rewrite (subimage2_throws d sg fv w h _ _ _ _ _ Rv); [reflexivity|].
        right; right; right; right; left; apply too_wide; auto. }
    assert (Gw : w <= we) by lia; clear HL.
    rewrite (usub1 w), (usub1 h), (usub_usub1 h he), (uadd_usub1 h he) by (unfold fits in *; lia).
    destruct (subimage2_Repr d sg Hsg fv w h _ 0 (w - 1) (h - he - 1) (h - 1) Rv) as (p1 & E1 & R1); try lia.
    rewrite E1; cbn [bind].
    destruct (paste2D_Repr _ _ _ _ _ _ _ _ we 0 c R0 R1) as (o1 & Eo1 & Ro1); try (unfold fits in *; lia).
    rewrite Eo1; cbn [bind].
    destruct (subimage2_Repr d sg Hsg fv w h _ 0 (w - 1) 0 he Rv) as (p2 & E2 & R2); try lia.
    rewrite E2; cbn [bind].
    destruct (paste2D_Repr _ _ _ _ _ _ _ _ we (h + he - 1) c Ro1 R2) as (o2 & Eo2 & Ro2); try (unfold fits in *; lia).
    rewrite Eo2; cbn [bind].
    destruct (flip_horizontal_Repr sg Hsg im w h f R) as (fh & Eh & Rh); rewrite Eh; cbn [bind].
    rewrite (subimage2_throws d sg fh w h _ _ _ _ _ Rh); [reflexivity|].
    right; right; left; apply too_wide; auto.
  Qed.

  Lemma replicate_padding_Repr im w h f we he c :
    Repr im w h f -> 0 < w -> 0 < h -> fits (w + 2 * we) -> fits (h + 2 * he) ->
    exists o, replicate_padding d sg im we he c = Ok o /\
      Repr o (w + 2 * we) (h + 2 * he) (fun x y => f (clamp_src w we x) (clamp_src h he y)).
  Proof.
    intros R Hw Hh Fw Fh; unfold replicate_padding; dims2 R; dims2 R.
    rewrite (usub1 w), (usub1 h) by (unfold fits in *; lia).
    rewrite (uadd_fits we w), (uadd_fits he h) by (unfold fits in *; lia).
    destruct (constant_padding_Repr im w h f we he c R Fw Fh) as (o0 & E0 & R0); rewrite E0; cbn [bind].
    assert (HG : Good (w + 2 * we) (h + 2 * he) (fun x y => f (clamp_src w we x) (clamp_src h he y))
                   (inrect we he w h) o0).
    { eexists; split; [exact R0|]; intros x y Hx Hy E; cbv beta; rewrite E.
      unfold inrect in E; f_equal; srcs. }
    clear R0 E0.
    (* top *)
    eapply (Good_loop _ _ _ he 0
               (fun y s => let* p := subimage2 d sg im 0 (w - 1) 0 0 in paste2D s p we y c) _ (fun i => inrect we i w 1)) in HG.
    2:{ intros i S' o Hi HS; cbv beta.
        destruct (subimage2_Repr d sg Hsg im w h _ 0 (w - 1) 0 0 R) as (p & E & Rp); try lia.
        rewrite E; cbn [bind].
        replace (w - 1 - 0 + 1) with w in Rp by lia; replace (0 - 0 + 1) with 1 in Rp by lia.
        apply (Good_paste _ _ _ _ _ _ _ _ _ _ _ _ HS Rp); auto; try lia.
        intros x y Hx Hy; f_equal; srcs. }
    destruct HG as (o1 & E & HG); rewrite E; cbn [bind]; clear E.
    (* bottom *)
    eapply (Good_loop _ _ _ he (h + he)
               (fun y s => let* p := subimage2 d sg im 0 (w - 1) (h - 1) (h - 1) in paste2D s p we y c) _ (fun i => inrect we (h + he + i) w 1)) in HG.
    2:{ intros i S' o Hi HS; cbv beta.
        destruct (subimage2_Repr d sg Hsg im w h _ 0 (w - 1) (h - 1) (h - 1) R) as (p & E & Rp); try lia.
        rewrite E; cbn [bind].
        replace (w - 1 - 0 + 1) with w in Rp by lia; replace (h - 1 - (h - 1) + 1) with 1 in Rp by lia.
        apply (Good_paste _ _ _ _ _ _ _ _ _ _ _ _ HS Rp); auto; try lia.
        intros x y Hx Hy; f_equal; srcs. }
    destruct HG as (o2 & E & HG); rewrite E; cbn [bind]; clear E.
    (* left *)
    eapply (Good_loop _ _ _ we 0
               (fun x s => let* p := subimage2 d sg im 0 0 0 (h - 1) in paste2D s p x he c) _ (fun i => inrect i he 1 h)) in HG.
    2:{ intros i S' o Hi HS; cbv beta.
        destruct (subimage2_Repr d sg Hsg im w h _ 0 0 0 (h - 1) R) as (p & E & Rp); try lia.
        rewrite E; cbn [bind].
        replace (h - 1 - 0 + 1) with h in Rp by lia; replace (0 - 0 + 1) with 1 in Rp by lia.
        apply (Good_paste _ _ _ _ _ _ _ _ _ _ _ _ HS Rp); auto; try lia.
        intros x y Hx Hy; f_equal; srcs. }
    destruct HG as (o3 & E & HG); rewrite E; cbn [bind]; clear E.
    (* right *)
    eapply (Good_loop _ _ _ we (w + we)
               (fun x s => let* p := subimage2 d sg im (w - 1) (w - 1) 0 (h - 1) in paste2D s p x he c) _ (fun i => inrect (w + we + i) he 1 h)) in HG.
    2:{ intros i S' o Hi HS; cbv beta.
        destruct (subimage2_Repr d sg Hsg im w h _ (w - 1) (w - 1) 0 (h - 1) R) as (p & E & Rp); try lia.
        rewrite E; cbn [bind].
        replace (h - 1 - 0 + 1) with h in Rp by lia; replace (w - 1 - (w - 1) + 1) with 1 in Rp by lia.
        apply (Good_paste _ _ _ _ _ _ _ _ _ _ _ _ HS Rp); auto; try lia.
        intros x y Hx Hy; f_equal; srcs. }
    destruct HG as (o4 & E & HG); rewrite E; cbn [bind]; clear E.
    (* corners *)
    rewrite (at_Repr _ _ _ _ _ _ R) by lia; cbn [bind].
    eapply Good_paste in HG; [destruct HG as (o5 & E & HG); rewrite E; cbn [bind]; clear E
      | apply set_all_Repr with (1 := Repr_sizes d we he) | lia | lia | exact Fw | exact Fh
      | intros x y Hx Hy; cbv beta; f_equal; srcs].
    rewrite (at_Repr _ _ _ _ _ _ R) by lia; cbn [bind].
    eapply Good_paste in HG; [destruct HG as (o6 & E & HG); rewrite E; cbn [bind]; clear E
      | apply set_all_Repr with (1 := Repr_sizes d we he) | lia | lia | exact Fw | exact Fh
      | intros x y Hx Hy; cbv beta; f_equal; srcs].
    rewrite (at_Repr _ _ _ _ _ _ R) by lia; cbn [bind].
    eapply Good_paste in HG; [destruct HG as (o7 & E & HG); rewrite E; cbn [bind]; clear E
      | apply set_all_Repr with (1 := Repr_sizes d we he) | lia | lia | exact Fw | exact Fh
      | intros x y Hx Hy; cbv beta; f_equal; srcs].
    rewrite (at_Repr _ _ _ _ _ _ R) by lia; cbn [bind].
    eapply Good_paste in HG; [destruct HG as (o8 & E & HG); rewrite E; clear E
      | apply set_all_Repr with (1 := Repr_sizes d we he) | lia | lia | exact Fw | exact Fh
      | intros x y Hx Hy; cbv beta; f_equal; srcs].
    exists o8; split; auto; eapply Good_all; eauto.
    intros x y Hx Hy; cbv beta.
    assert (EB : forall (p : nat -> bool) n i, i < n -> p i = true -> existsb p (seq 0 n) = true)
      by (intros p n i Hi Hp; apply existsb_exists; exists i; split; auto; apply in_seq; lia).
    destruct (Nat.lt_ge_cases x we) as [X1|X1]; [|destruct (Nat.lt_ge_cases x (we + w)) as [X2|X2]];
    (destruct (Nat.lt_ge_cases y he) as [Y1|Y1]; [|destruct (Nat.lt_ge_cases y (he + h)) as [Y2|Y2]]);
      repeat rewrite orb_true_iff.
    - left; left; left; right; unfold inrect; lia.
    - left; left; left; left; left; right; apply (EB _ we x); auto; unfold inrect; lia.
    - left; right; unfold inrect; lia.
    - left; left; left; left; left; left; left; right; apply (EB _ he y); auto; unfold inrect; lia.
    - left; left; left; left; left; left; left; left; unfold inrect; lia.
    - left; left; left; left; left; left; right; apply (EB _ he (y - (h + he))); [lia|]; unfold inrect; lia.
    - left; left; right; unfold inrect; lia.
    - left; left; left; left; right; apply (EB _ we (x - (w + we))); [lia|]; unfold inrect; lia.
    - right; unfold inrect; lia.
  Qed.
End Pad.
