(** PropConv.v - C26 (conv2), C27 (N-dimensional convolution), C28 (windowed_filter). *)
From Coq Require Import ZifyBool ZifyNat.
From Verif Require Import Base ImageModel ImageFacts IndexModel ImageProofs GeomModel GeomProofs PadProofs CropProofs
  PixelModel PixelProofs ConvModel BigSum ConvProofs ConvNProofs WindowProofs.
Open Scope nat_scope.

(** C26: [bsum zero add t (grid hx wx)] is the sum of [t (b, a)] over all input pixels (a, b).  Element
    arithmetic is arbitrary up to [add a zero = a]; the loop over the output pixels runs in any order. *)
Theorem C26_conv2_full :
  forall (A B C : Type) (zero : C) (add : C -> C -> C) (mul : A -> B -> C) s (x : image A) (y : image B) wx hx wk hk f g,
  (forall a, add a zero = a) -> sched1_ok s -> Repr x wx hx f -> Repr y wk hk g ->
  0 < wk -> 0 < hk -> fits (wx + wk) -> fits (hx + hk) ->
  exists o, conv2 zero add mul s x y false = Ok o /\
    Repr o (wx + wk - 1) (hx + hk - 1) (fun X Y =>
      bsum zero add (fun p : nat * nat => let (b, a) := p in
        if ((a <=? X) && (X - a <? wk)) && ((b <=? Y) && (Y - b <? hk))
        then mul (f a b) (g (X - a) (Y - b)) else zero) (grid hx wx)).
Proof. intros; eapply conv2_full_Repr; eauto. Qed.
Print Assumptions C26_conv2_full.

(** the same-size variant: pixel (X, Y) is pixel (X + ox, Y + oy) of the full convolution, where the
    margin (wk - 1 pixels in all) is split evenly: ox is floor or ceiling of (wk - 1) / 2 *)
Theorem C26_conv2_same :
  forall (A B C : Type) (zero : C) (add : C -> C -> C) (mul : A -> B -> C) s (x : image A) (y : image B) wx hx wk hk f g,
  (forall a, add a zero = a) -> sched1_ok s -> Repr x wx hx f -> Repr y wk hk g ->
  0 < wk -> 0 < hk -> 0 < wx -> 0 < hx -> (Z.of_nat (wx + wk) <= 2 ^ 62)%Z -> (Z.of_nat (hx + hk) <= 2 ^ 62)%Z ->
  exists o ox oy, conv2 zero add mul s x y true = Ok o /\
    ox = (wx + wk - 1) / 2 - wx / 2 /\ oy = (hx + hk - 1) / 2 - hx / 2 /\
    (2 * ox = wk - 1 \/ 2 * ox + 1 = wk - 1 \/ 2 * ox = wk) /\ (2 * oy = hk - 1 \/ 2 * oy + 1 = hk - 1 \/ 2 * oy = hk) /\
    Repr o wx hx (fun X Y =>
      bsum zero add (fun p : nat * nat => let (b, a) := p in
        if ((a <=? X + ox) && (X + ox - a <? wk)) && ((b <=? Y + oy) && (Y + oy - b <? hk))
        then mul (f a b) (g (X + ox - a) (Y + oy - b)) else zero) (grid hx wx)).
Proof.
  intros A B C zero add mul s x y wx hx wk hk f g Z0 Hs Rx Ry Pw Ph Px Py Fw Fh.
  destruct (conv2_same_Repr zero add mul Z0 s x y wx hx wk hk f g) as (o & E & R); auto.
  exists o, ((wx + wk - 1) / 2 - wx / 2), ((hx + hk - 1) / 2 - hx / 2); split; auto; split; auto; split; auto.
  assert (Q : forall n k, 0 < k -> let q := (n + k - 1) / 2 - n / 2 in 2 * q = k - 1 \/ 2 * q + 1 = k - 1 \/ 2 * q = k).
  { clear; intros n k Hk; cbv zeta.
    pose proof (Nat.div_mod (n + k - 1) 2 ltac:(lia)); pose proof (Nat.div_mod n 2 ltac:(lia)).
    pose proof (Nat.mod_upper_bound (n + k - 1) 2 ltac:(lia)); pose proof (Nat.mod_upper_bound n 2 ltac:(lia)); lia. }
  split; [apply Q; auto|]; split; [apply Q; auto|exact R].
Qed.
Print Assumptions C26_conv2_same.

(** with commutative addition and multiplication the operands may be exchanged *)
Theorem C26_conv2_commutes :
  forall (A C : Type) (zero : C) (add : C -> C -> C) (mul : A -> A -> C) s s' (x y : image A) wx hx wk hk f g,
  (forall a, add a zero = a) -> (forall a b, add a b = add b a) -> (forall a b c, add a (add b c) = add (add a b) c) ->
  (forall a b, mul a b = mul b a) ->
  sched1_ok s -> sched1_ok s' -> Repr x wx hx f -> Repr y wk hk g ->
  0 < wx -> 0 < hx -> 0 < wk -> 0 < hk -> fits (wx + wk) -> fits (hx + hk) ->
  exists o, conv2 zero add mul s x y false = Ok o /\ conv2 zero add mul s' y x false = Ok o.
Proof.
  intros A C zero add mul s s' x y wx hx wk hk f g Z0 Co As Mc Hs Hs' Rx Ry Px Py Pw Ph Fw Fh.
  destruct (conv2_full_Repr zero add mul Z0 s x y wx hx wk hk f g) as (o & E & R); auto.
  destruct (conv2_full_Repr zero add mul Z0 s' y x wk hk wx hx g f) as (o' & E' & R'); auto;
    try (rewrite Nat.add_comm; auto).
  exists o; split; auto; rewrite E'; f_equal.
  rewrite (Nat.add_comm wk), (Nat.add_comm hk) in R'.
  apply (Repr_unique o' o _ _ _ _ R' R); intros X Y _ _; cbv beta.
  symmetry; apply conv_sum_swap; auto.
Qed.
Print Assumptions C26_conv2_commutes.

(** 8-bit images: the accumulator is 8-bit, the result is the exact sum modulo 256 *)
Theorem C26_conv2_uint8 :
  forall s (x y : image Z) wx hx wk hk f g,
  sched1_ok s -> Repr x wx hx f -> Repr y wk hk g ->
  0 < wk -> 0 < hk -> fits (wx + wk) -> fits (hx + hk) ->
  exists o, conv2 0%Z (fun a b => ((a + b) mod 256)%Z) Z.mul s x y false = Ok o /\
    Repr o (wx + wk - 1) (hx + hk - 1) (fun X Y =>
      (bsum 0 Z.add (fun p : nat * nat => let (b, a) := p in
        if ((a <=? X)%nat && (X - a <? wk)%nat) && ((b <=? Y)%nat && (Y - b <? hk)%nat)
        then f a b * g (X - a)%nat (Y - b)%nat else 0) (grid hx wx) mod 256)%Z).
Proof.
  intros s x y wx hx wk hk f g Hs Rx Ry Pw Ph Fw Fh.
  set (add8 := fun a b : Z => ((a + b) mod 256)%Z).
  destruct (conv2_full_Repr 0%Z Z.add Z.mul Z.add_0_r s x y wx hx wk hk f g)
    as (o & E & R); auto.
  assert (G : forall (l : list Z) (body body8 : Z -> Z -> res Z) t,
    (forall i t r, body i t = Ok r -> body8 i (t mod 256)%Z = Ok (r mod 256)%Z) ->
    forall r, for_list l body t = Ok r -> for_list l body8 (t mod 256)%Z = Ok (r mod 256)%Z).
  { induction l as [|i l IH]; intros body body8 t Hb r Hr; cbn [for_list] in *; [congruence|].
    destruct (body i t) as [t'| |] eqn:Et; cbn [bind] in Hr; try discriminate.
    rewrite (Hb _ _ _ Et); cbn [bind]; eapply IH; eauto. }
  assert (PX : forall yf idx r,
    conv2_pixel 0%Z Z.add Z.mul x yf wx hx wk hk (wx + wk - 1) idx = Ok r ->
    conv2_pixel 0%Z add8 Z.mul x yf wx hx wk hk (wx + wk - 1) idx = Ok (r mod 256)%Z).
  { intros yf idx r Hr; unfold conv2_pixel in *; refine (G _ _ _ 0%Z _ r Hr).
    intros y1 t r0; destruct (loc_unchecked x _); cbn [bind]; try discriminate.
    destruct (loc_unchecked yf _); cbn [bind]; try discriminate.
    apply G; intros x1 t1 r1; destruct (vgetz (pix x) _); cbn [bind]; try discriminate.
    destruct (vgetz (pix yf) _); cbn [bind]; try discriminate.
    intros E1; injection E1 as <-; unfold add8; f_equal; apply Zplus_mod_idemp_l. }
  set (S := fun X Y => bsum 0%Z Z.add (conv_term 0%Z Z.mul f g wk hk X Y) (grid hx wx)) in *.
  unfold conv2 in *.
  rewrite (get_width_Repr _ _ _ _ Rx), (get_height_Repr _ _ _ _ Rx) in *; cbn [bind] in *.
  rewrite (get_width_Repr _ _ _ _ Ry), (get_height_Repr _ _ _ _ Ry) in *; cbn [bind] in *.
  rewrite !usub_le in * by (auto; lia).
  destruct (rev_Repr y wk hk g Ry Pw Ph) as (yf & Ef & Rf); rewrite Ef in *; cbn [bind] in *.
  set (ow := wx + wk - 1) in *; set (oh := hx + hk - 1) in *.
  destruct (overlay_all (s (ow * oh))
      (fun idx out => let* sum := conv2_pixel 0%Z add8 Z.mul x yf wx hx wk hk ow idx in
                      atu_set out [idx mod ow; idx / ow] sum)
      (fun idx => idx mod ow) (fun idx => idx / ow) (image_sizes 0%Z [ow; oh]) ow oh
      (fun X Y => (S X Y mod 256)%Z)) as (o' & Eo & Ro).
  - reflexivity.
  - unfold image_sizes; cbn [pix]; rewrite repeat_length; apply prodn2.
  - intros i st Hi Ds Ls; apply sched1_in in Hi; auto.
    assert (NZ : ow <> 0) by (intros Z0; rewrite Z0 in Hi; simpl in Hi; lia).
    assert (Hx : i mod ow < ow) by (apply Nat.mod_upper_bound; exact NZ).
    assert (Hy : i / ow < oh) by (apply Nat.div_lt_upper_bound; auto; lia).
    rewrite (PX yf i (S (i mod ow) (i / ow))); cbn [bind].
    + apply (atu_set2_ok st ow oh); auto.
    + replace i with (i / ow * ow + i mod ow) at 1 by (rewrite Nat.mul_comm; symmetry; apply Nat.div_mod; exact NZ).
      apply (conv2_pixel_spec 0%Z Z.add Z.mul Z.add_0_r x yf wx hx wk hk f g (i mod ow) (i / ow)); auto.
  - intros i Hi; apply sched1_in in Hi; auto.
    assert (NZ : ow <> 0) by (intros Z0; rewrite Z0 in Hi; simpl in Hi; lia).
    split; [apply Nat.mod_upper_bound; exact NZ | apply Nat.div_lt_upper_bound; auto; lia].
  - intros X Y HX HY; exists (Y * ow + X); rewrite sched1_in by exact Hs; split; [nia|split].
    + rewrite Nat.add_comm, Nat.mod_add by lia; apply Nat.mod_small; auto.
    + rewrite Nat.div_add_l by lia; rewrite Nat.div_small by lia; lia.
  - rewrite Eo; exists o'; split; auto.
Qed.
Print Assumptions C26_conv2_uint8.

Theorem C26_empty_kernel_throws :
  forall (A B C : Type) (zero : C) (add : C -> C -> C) (mul : A -> B -> C) s (x : image A) (y : image B) wx hx f wk hk g b,
  Repr x wx hx f -> Repr y wk hk g -> wk * hk = 0 -> conv2 zero add mul s x y b = Throw RuntimeError.
Proof. intros A B C zero add mul s x y wx hx f wk hk g b; apply conv2_empty_kernel_throws. Qed.
Print Assumptions C26_empty_kernel_throws.

Example C26_example :
  conv2 0%Z Z.add Z.mul seq0 (mkImage [3; 2] [1; 2; 3; 4; 5; 6]%Z) (mkImage [2; 2] [1; 10; 100; 1000]%Z) false =
    Ok (mkImage [4; 3] [1; 12; 23; 30; 104; 1245; 2356; 3060; 400; 4500; 5600; 6000]%Z) /\
  conv2 0%Z Z.add Z.mul seq0 (mkImage [3; 2] [1; 2; 3; 4; 5; 6]%Z) (mkImage [2; 2] [1; 10; 100; 1000]%Z) true =
    Ok (mkImage [3; 2] [12; 23; 30; 1245; 2356; 3060]%Z).
Proof. split; vm_compute; reflexivity. Qed.

(** C27: the full convolution for any number of dimensions.  [reachable ids p k] says that p - k is a
    pixel of the image; [all_idx kds] lists the kernel's coordinate tuples. *)
Theorem C27_convolution_full :
  forall (A : Type) (zero : A) (add f : A -> A -> A) (im kernel : image A) ids kds fi fk,
  (forall a, add a zero = a) -> (forall a b, add a b = add b a) -> (forall a b c, add a (add b c) = add (add a b) c) ->
  ReprN im ids fi -> ReprN kernel kds fk -> length kds = length ids -> ids <> [] ->
  Forall2 (fun d k => 0 < d + k /\ fits (d + k)) ids kds -> fits (length ids) ->
  exists o, convolution zero add f im kernel false = Ok o /\
    ReprN o (conv_dims ids kds)
      (fun p => bsum zero add (fun k => if reachable ids p k then f (fi (idx_sub p k)) (fk k) else zero) (all_idx kds)).
Proof. intros; apply convolution_ReprN; auto. Qed.
Print Assumptions C27_convolution_full.

(** the two-dimensional case agrees with conv2 *)
Theorem C27_agrees_with_conv2 :
  forall (A : Type) (zero : A) (add mul : A -> A -> A) s (x y : image A) wx hx wk hk f g,
  (forall a, add a zero = a) -> (forall a b, add a b = add b a) -> (forall a b c, add a (add b c) = add (add a b) c) ->
  sched1_ok s -> Repr x wx hx f -> Repr y wk hk g ->
  0 < wx -> 0 < hx -> 0 < wk -> 0 < hk -> fits (wx + wk) -> fits (hx + hk) ->
  exists o, convolution zero add mul x y false = Ok o /\ conv2 zero add mul s x y false = Ok o.
Proof.
  intros A zero add mul s x y wx hx wk hk f g Z0 Co As Hs Rx Ry Px Py Pw Ph Fw Fh.
  pose proof (proj1 (Repr_ReprN _ _ _ _) Rx) as RxN; pose proof (proj1 (Repr_ReprN _ _ _ _) Ry) as RyN.
  destruct (convolution_ReprN zero add mul Z0 Co As x y [wx; hx] [wk; hk] _ _ RxN RyN) as (o & E & R); auto.
  - discriminate.
  - do 2 (constructor; [split; [lia|assumption]|]); constructor.
  - unfold fits, two64; simpl; lia.
  - destruct (conv2_full_Repr zero add mul Z0 s x y wx hx wk hk f g) as (o' & E' & R'); auto.
    exists o; split; auto; rewrite E'; f_equal.
    apply Repr_ReprN in R'; eapply ReprN_unique; [exact R' | exact R |].
    intros idx IR; destruct idx as [|X [|Y [|z r]]]; try (apply in_range_length in IR; simpl in IR; lia).
    cbn [nth].
    rewrite (conv_sum_swap zero add mul (fun a b => mul b a)) by auto.
    assert (P : Permutation (all_idx [wk; hk]) (map (fun p => [snd p; fst p]) (grid hk wk))).
    { apply NoDup_Permutation; [apply NoDup_all_idx| |].
      - apply NoDup_map_inj; [intros [a b] [a' b'] _ _ H; simpl in H; congruence | apply NoDup_grid].
      - intros idx; rewrite in_all_idx, in_map_iff; split.
        + intros H; destruct idx as [|a [|b [|c r]]]; try (apply in_range_length in H; simpl in H; lia).
          apply in_range2 in H; exists (b, a); split; auto; apply in_grid; simpl; lia.
        + intros ([b a] & <- & H); apply in_grid in H; cbn [fst snd] in *; apply in_range2; lia. }
    rewrite (bsum_perm zero add Z0 Co As _ _ _ P), bsum_map; apply bsum_ext.
    intros [b a] _; unfold conv_term; cbn [fst snd reachable idx_sub nth].
    rewrite andb_true_r; reflexivity.
Qed.
Print Assumptions C27_agrees_with_conv2.

(** with is_size_same = true the call returns the input image, whatever the kernel *)
Theorem C27_same_size_returns_input :
  forall (A : Type) (zero : A) (add f : A -> A -> A) (im kernel : image A) ids kds fi fk,
  (forall a, add a zero = a) -> (forall a b, add a b = add b a) -> (forall a b c, add a (add b c) = add (add a b) c) ->
  ReprN im ids fi -> ReprN kernel kds fk -> length kds = length ids -> ids <> [] ->
  Forall2 (fun d k => 0 < d /\ 0 < d + k /\ fits (d + k)) ids kds -> fits (length ids) ->
  Forall (fun n => (Z.of_nat n <= 2 ^ 62)%Z) ids ->
  convolution zero add f im kernel true = Ok im.
Proof. intros; eapply convolution_same_ReprN; eauto. Qed.
Print Assumptions C27_same_size_returns_input.

(** so it is not the central crop of the full convolution *)
Theorem C27_same_size_refuted :
  exists (im kernel full : image Z),
    convolution 0%Z Z.add Z.mul im kernel false = Ok full /\
    convolution 0%Z Z.add Z.mul im kernel true <>
      subimage 0%Z full (dims im) (get_center_location full) 0%Z.
Proof.
  exists (mkImage [3] [1; 2; 3]%Z), (mkImage [1] [10]%Z), (mkImage [3] [10; 20; 30]%Z).
  split; [vm_compute; reflexivity|]; vm_compute; discriminate.
Qed.
Print Assumptions C27_same_size_refuted.

Example C27_example :
  convolution 0%Z Z.add Z.mul (mkImage [2; 1; 2] [1; 2; 3; 4]%Z) (mkImage [2; 2; 1] [1; 10; 100; 1000]%Z) false =
  Ok (mkImage [3; 2; 2] [1; 12; 20; 100; 1200; 2000; 3; 34; 40; 300; 3400; 4000]%Z).
Proof. vm_compute; reflexivity. Qed.

(** ** C28 *)
(** the w x h image with pixels G *)
Definition img2 {A} (w h : nat) (G : nat -> nat -> A) : image A :=
  mkImage [w; h] (map (fun p => G (snd p) (fst p)) (grid h w)).

Lemma tab_img2 {A} w h (F : list nat -> A) G :
  (forall x y, x < w -> y < h -> F [x; y] = G x y) -> tab [w; h] F = img2 w h G.
Proof.
  intros H; unfold tab, img2; f_equal; rewrite prodn2.
  transitivity (map (fun k => G (k mod w) (k / w)) (seq 0 (w * h))).
  - apply map_ext_in; intros k Hk; apply in_seq0 in Hk; cbn [unoff].
    assert (NZ : w <> 0) by (intros ->; simpl in Hk; lia).
    assert (k / w < h) by (apply Nat.div_lt_upper_bound; lia).
    rewrite (Nat.mod_small (k / w) h) by lia; apply H; auto; apply Nat.mod_upper_bound; auto.
  - unfold grid; clear; induction h as [|h IH]; [rewrite Nat.mul_0_r; reflexivity|].
    rewrite seq_S; unfold pairs; rewrite flat_map_app, map_app; fold (pairs (seq 0 h) (fun _ => seq 0 w)).
    rewrite <- IH; replace (w * S h) with (w * h + w) by lia; rewrite seq_app, map_app; f_equal.
    cbn [flat_map]; rewrite app_nil_r, map_map; cbn [fst snd]; rewrite !Nat.add_0_l.
    clear; assert (G' : forall n, n <= w -> map (fun k => G (k mod w) (k / w)) (seq (w * h) n) = map (fun x => G x h) (seq 0 n)).
    { induction n as [|n IH]; intros L; [reflexivity|]; rewrite !seq_S, !map_app, IH by lia; f_equal.
      cbn [map]; f_equal; f_equal.
      - rewrite Nat.mul_comm, Nat.add_comm, Nat.mod_add by lia; apply Nat.mod_small; lia.
      - rewrite Nat.mul_comm, Nat.div_add_l by lia; rewrite Nat.div_small by lia; lia. }
    apply G'; lia.
Qed.

(** the padding leaves the original in the middle *)
Lemma padded_interior {A} (d : A) sg im w h f we he bc c :
  sched_ok sg -> Repr im w h f -> 0 < w -> 0 < h -> fits (w + 2 * we) -> fits (h + 2 * he) ->
  (bc = BMirror -> we < w /\ he < h) ->
  exists pad P, padded_image d sg im we he bc c = Ok pad /\ Repr pad (w + 2 * we) (h + 2 * he) P /\
    forall x y, x < w -> y < h -> P (x + we) (y + he) = f x y.
Proof.
  intros Hs R Pw Ph Fw Fh HM; destruct bc; cbn [padded_image].
  - destruct (constant_padding_Repr d im w h f we he c R Fw Fh) as (o & E & Ro).
    eexists; eexists; split; [exact E|]; split; [exact Ro|]; intros x y Hx Hy; unfold inrect.
    match goal with |- (if ?b then _ else _) = _ => replace b with true by lia end; f_equal; lia.
  - destruct (HM eq_refl) as [Lw Lh].
    destruct (mirror_padding_Repr d sg Hs im w h f we he c R Lw Lh Fw Fh) as (o & E & Ro).
    eexists; eexists; split; [exact E|]; split; [exact Ro|]; intros x y Hx Hy; cbv beta; f_equal; srcs.
  - destruct (replicate_padding_Repr d sg Hs im w h f we he c R Pw Ph Fw Fh) as (o & E & Ro).
    eexists; eexists; split; [exact E|]; split; [exact Ro|]; intros x y Hx Hy; cbv beta; f_equal; srcs.
Qed.

Lemma wf_2d {A} (d : A) sg s im w h f ww wh filt bc c :
  Repr im w h f ->
  windowed_filter d sg s im [ww; wh] filt bc c =
  let* padded := padded_image d sg im ww wh bc c in
  let* padded := for_list (s (w * h)) (wbody d filt [w; h] [ww; wh] [ww; wh]) padded in
  subimage d padded [w; h] (map (fun n => n / 2) (dims padded)) d.
Proof.
  intros (D & L & _); unfold windowed_filter, get_dimensionality, count; rewrite D; cbn [length Nat.eqb negb].
  cbn [vget nth_error bind]; rewrite prodn2.
  destruct (padded_image d sg im ww wh bc c) as [pad| |]; cbn [bind]; auto.
  rewrite (for_list_ext _ _ (wbody d filt [w; h] [ww; wh] [ww; wh])); [reflexivity|].
  intros i st _; unfold wbody, linear_index_to_indices; cbn [lin2idx_loop].
  destruct (udiv i 1); cbn [bind]; auto; destruct (umod a w); cbn [bind]; auto.
  destruct (udiv i (1 * w)); cbn [bind]; auto; destruct (umod a1 h); cbn [bind]; auto.
Qed.

(** The property (output pixel = filter of the window of the original, in any order) is not what the
    code computes: results are written into the image the windows are read from.  Proved: what the
    sequential policy computes.  The window around (x, y) holds, at the pixels that precede (x, y) in
    row order, the filter results already written, elsewhere the padded original.  Missing: nothing of
    this kind holds for the parallel policies, whose outcome depends on the order (C28_order_refuted). *)
Theorem C28_sequential_partial :
  forall (A : Type) (d : A) sg (im : image A) w h f ww wh (filt : image A -> A) bc c,
  sched_ok sg -> Repr im w h f -> 0 < w -> 0 < h -> 0 < ww -> 0 < wh ->
  (Z.of_nat (w + 2 * ww) <= 2 ^ 62)%Z -> (Z.of_nat (h + 2 * wh) <= 2 ^ 62)%Z ->
  (bc = BMirror -> ww < w /\ wh < h) ->
  exists pad P o F,
    padded_image d sg im ww wh bc c = Ok pad /\ Repr pad (w + 2 * ww) (h + 2 * wh) P /\
    windowed_filter d sg seq0 im [ww; wh] filt bc c = Ok o /\ Repr o w h F /\
    forall x y, x < w -> y < h ->
      F x y = filt (img2 ww wh (fun u v =>
        let p := x + (ww - ww / 2) + u in let q := y + (wh - wh / 2) + v in
        if ((ww <=? p) && (p <? ww + w)) && ((wh <=? q) && (q <? wh + h)) && ((q - wh) * w + (p - ww) <? y * w + x)
        then F (p - ww) (q - wh) else P p q)).
Proof.
  intros A d sg im w h f ww wh filt bc c Hs R Pw Ph Pww Pwh Bw Bh HM.
  destruct (padded_interior d sg im w h f ww wh bc c) as (pad & P & E & Rp & _); auto; try (unfold fits, two64; lia).
  rewrite (wf_2d d sg seq0 im w h f) by exact R; rewrite E; cbn [bind].
  pose proof (proj1 (Repr_ReprN _ _ _ _) Rp) as RpN.
  set (PN := fun idx : list nat => P (nth 0 idx 0) (nth 1 idx 0)) in *.
  assert (Ep : [w + 2 * ww; h + 2 * wh] = map (fun ab => fst ab + 2 * snd ab) (combine [w; h] [ww; wh])) by reflexivity.
  assert (Pn : 0 < prodn [ww; wh]) by (rewrite prodn2; nia).
  assert (SP : Forall (fun n => (Z.of_nat n <= 2 ^ 62)%Z) [w + 2 * ww; h + 2 * wh]) by (repeat constructor; auto).
  assert (SW : Forall (fun n => (Z.of_nat n <= 2 ^ 62)%Z) [ww; wh]) by (repeat constructor; lia).
  destruct (wloop_seq d filt [w; h] [ww; wh] [ww; wh] _ eq_refl eq_refl Ep Pn SP SW pad PN (w * h) RpN) as (o & F & Eo & Ro & HF);
    [rewrite prodn2; lia|].
  change (seq0 (w * h)) with (seq 0 (w * h)); rewrite Eo; cbn [bind].
  rewrite (ReprN_dims _ _ _ Ro).
  destruct (crop_region d filt [w; h] [ww; wh] [ww; wh] _ eq_refl eq_refl Ep Pn SP o _ Ro) as (r & Er & Rr); [rewrite prodn2; nia|].
  rewrite Er; exists pad, P, r, (fun x y => F [x; y]); split; auto; split; auto; split; auto.
  split.
  { apply Repr_ReprN; refine (ReprN_ext _ _ _ _ Rr _).
    intros idx IR; destruct idx as [|x [|y [|z q]]]; try (apply in_range_length in IR; simpl in IR; lia).
    cbn [nth]; unfold mix.
    destruct (idx_add_sub [w; h] [ww; wh] eq_refl [x; y] IR) as [-> ->].
    pose proof (off_lt _ _ IR) as HL; rewrite prodn2 in HL.
    replace (off [w; h] [x; y] <? w * h) with true by lia; reflexivity. }
  intros x y Hx Hy.
  rewrite (HF [x; y]) by (rewrite ?off2; try apply in_range2; auto; nia).
  f_equal; unfold window_of; apply tab_img2; intros u v Hu Hv.
  assert (D1 : ww / 2 <= ww) by (apply Nat.div_le_upper_bound; lia).
  assert (D2 : wh / 2 <= wh) by (apply Nat.div_le_upper_bound; lia).
  assert (Q : crop_poss (idx_add [x; y] [ww; wh]) [ww; wh] [u; v] =
              map Z.of_nat [x + (ww - ww / 2) + u; y + (wh - wh / 2) + v]).
  { cbn [idx_add crop_poss map]; unfold crop_pos; f_equal; [lia|]; f_equal; lia. }
  rewrite Q; cbv zeta; set (p := x + (ww - ww / 2) + u); set (q := y + (wh - wh / 2) + v).
  assert (Hp : p < w + 2 * ww) by (unfold p; lia); assert (Hq : q < h + 2 * wh) by (unfold q; lia).
  clearbody p q; unfold insideb; cbn [map combine forallb fst snd].
  replace (0 <=? Z.of_nat p)%Z with true by lia; replace (Z.of_nat p <? Z.of_nat (w + 2 * ww))%Z with true by lia.
  replace (0 <=? Z.of_nat q)%Z with true by lia; replace (Z.of_nat q <? Z.of_nat (h + 2 * wh))%Z with true by lia.
  cbn [andb map]; rewrite !Nat2Z.id; unfold mix; cbn [reachable idx_sub]; rewrite !off2, andb_true_r.
  replace (p - ww <? w) with (p <? ww + w) by (destruct (ww <=? p) eqn:?; lia).
  destruct (Nat.leb_spec ww p), (Nat.leb_spec wh q); cbn [andb]; try reflexivity.
  - replace (q - wh <? h) with (q <? wh + h) by lia; reflexivity.
Qed.
Print Assumptions C28_sequential_partial.

(** windows of one pixel read only the pixel they write, so every order gives filter of the original *)
Theorem C28_one_pixel_windows_any_order :
  forall (A : Type) (d : A) sg s (im : image A) w h f (filt : image A -> A) bc c,
  sched_ok sg -> sched1_ok s -> Repr im w h f -> 0 < w -> 0 < h ->
  (Z.of_nat (w + 2) <= 2 ^ 62)%Z -> (Z.of_nat (h + 2) <= 2 ^ 62)%Z ->
  (bc = BMirror -> 1 < w /\ 1 < h) ->
  exists o, windowed_filter d sg s im [1; 1] filt bc c = Ok o /\
    Repr o w h (fun x y => filt (mkImage [1; 1] [f x y])).
Proof.
  intros A d sg s im w h f filt bc c Hs Hs1 R Pw Ph Bw Bh HM.
  destruct (padded_interior d sg im w h f 1 1 bc c) as (pad & P & E & Rp & Hin); auto; try (unfold fits, two64; lia).
  rewrite (wf_2d d sg s im w h f) by exact R; rewrite E; cbn [bind].
  pose proof (proj1 (Repr_ReprN _ _ _ _) Rp) as RpN.
  set (PN := fun idx : list nat => P (nth 0 idx 0) (nth 1 idx 0)) in *.
  assert (Ep : [w + 2 * 1; h + 2 * 1] = map (fun ab => fst ab + 2 * snd ab) (combine [w; h] [1; 1])) by reflexivity.
  assert (Pn : 0 < prodn [1; 1]) by (rewrite prodn2; lia).
  assert (SP : Forall (fun n => (Z.of_nat n <= 2 ^ 62)%Z) [w + 2 * 1; h + 2 * 1]) by (repeat constructor; auto).
  assert (SW : Forall (fun n => (Z.of_nat n <= 2 ^ 62)%Z) [1; 1]) by (repeat constructor; lia).
  destruct (wloop_one d filt [w; h] [1; 1] [1; 1] _ eq_refl eq_refl Ep Pn SP SW PN) with (l := s (w * h)) (padded := pad) (Q := PN)
    as (o & T & Eo & Ro & T1 & _); auto.
  
  { eapply Permutation_NoDup; [apply Permutation_sym, Hs1 | apply seq_NoDup]. }
  { intros k Hk; apply sched1_in in Hk; auto; rewrite prodn2; auto. }
  rewrite Eo; cbn [bind]; rewrite (ReprN_dims _ _ _ Ro).
  destruct (crop_region d filt [w; h] [1; 1] [1; 1] _ eq_refl eq_refl Ep Pn SP o _ Ro) as (r & Er & Rr); [rewrite prodn2; nia|].
  rewrite Er; exists r; split; auto.
  apply Repr_ReprN; refine (ReprN_ext _ _ _ _ Rr _).
  intros idx IR; destruct idx as [|x [|y [|z q]]]; try (apply in_range_length in IR; simpl in IR; lia).
  pose proof (off_lt _ _ IR) as HL; rewrite prodn2 in HL.
  pose proof (T1 (off [w; h] [x; y])) as HT; rewrite off_unoff in HT by exact IR; rewrite HT by (apply sched1_in; auto).
  f_equal; unfold tab; f_equal; cbn [prodn fold_right Nat.mul Nat.add seq map]; f_equal.
  unfold PN; cbn [idx_add nth]; apply in_range2 in IR; apply Hin; tauto.
Qed.
Print Assumptions C28_one_pixel_windows_any_order.

Theorem C28_window_dimension_throws :
  forall (A : Type) (d : A) sg s (im : image A) ws filt bc c,
  length ws <> length (dims im) -> windowed_filter d sg s im ws filt bc c = Throw RuntimeError.
Proof.
  intros A d sg s im ws filt bc c H; unfold windowed_filter, get_dimensionality.
  destruct (Nat.eqb_spec (length (dims im)) (length ws)); [congruence | reflexivity].
Qed.
Print Assumptions C28_window_dimension_throws.

(** the sequential result is not the filter of the original neighbourhoods: moving sum of 3 *)
Theorem C28_original_neighbourhood_refuted :
  exists (im : image nat) (filt : image nat -> nat) o v,
    windowed_filter 0 grid seq0 im [3; 1] filt BConstant 0 = Ok o /\
    Repr im 3 1 (fun x _ => nth x [1; 2; 3] 0) /\ at_ o [1; 0] = Ok v /\
    v <> filt (mkImage [3; 1] [1; 2; 3]).
Proof.
  exists (mkImage [3; 1] [1; 2; 3]), (fun win => fold_right Nat.add 0 (pix win)).
  exists (mkImage [3; 1] [3; 8; 11]), 8; repeat split; try (vm_compute; reflexivity).
  - intros x y Hx Hy; destruct y; [|lia]; destruct x as [|[|[|x]]]; auto; lia.
  - vm_compute; lia.
Qed.
Print Assumptions C28_original_neighbourhood_refuted.

(** and different orders of the pixels give different images *)
Theorem C28_order_refuted :
  exists (im : image nat) (filt : image nat -> nat) s1 s2 o1 o2,
    sched1_ok s1 /\ sched1_ok s2 /\
    windowed_filter 0 grid s1 im [3; 1] filt BConstant 0 = Ok o1 /\
    windowed_filter 0 grid s2 im [3; 1] filt BConstant 0 = Ok o2 /\ o1 <> o2.
Proof.
  exists (mkImage [3; 1] [1; 2; 3]), (fun win => fold_right Nat.add 0 (pix win)).
  exists seq0, (fun n => rev (seq 0 n)), (mkImage [3; 1] [3; 8; 11]), (mkImage [3; 1] [9; 8; 5]).
  split; [apply sched1_seq0|]; split; [intros n; apply Permutation_sym, Permutation_rev|].
  split; [vm_compute; reflexivity|]; split; [vm_compute; reflexivity|]; discriminate.
Qed.
Print Assumptions C28_order_refuted.

Example C28_example :
  windowed_filter 0 grid (fun n => rev (seq 0 n)) (mkImage [2; 2] [1; 2; 3; 4]) [1; 1]
    (fun win => 10 * nth 0 (pix win) 0) BMirror 0 = Ok (mkImage [2; 2] [10; 20; 30; 40]).
Proof. vm_compute; reflexivity. Qed.
