(** PixelProofs.v - lemmas about PixelModel.v *)
From Coq Require Import ZifyBool ZifyNat QArith Qround.
From Verif Require Import Base ImageModel ImageFacts ImageProofs PixelModel.
Open Scope nat_scope.

Lemma sched1_seq0 : sched1_ok seq0.
Proof. intros n; apply Permutation_refl. Qed.

Lemma sched1_in s n i : sched1_ok s -> In i (s n) <-> i < n.
Proof.
  intros H; rewrite <- in_seq0; split; intros HI.
  - eapply Permutation_in; [apply H | exact HI].
  - eapply Permutation_in; [apply Permutation_sym, H | exact HI].
Qed.

(** ** vector loops *)
(** writing position i of a vector for each i of a duplicate-free list *)
Lemma fill_loop {B} (g : nat -> res B) (f : nat -> B) l : forall out,
  NoDup l -> (forall i, In i l -> i < length out /\ g i = Ok (f i)) ->
  exists o, for_list l (fun i out => let* v := g i in vset out i v) out = Ok o /\ length o = length out /\
    forall k, nth_error o k = if in_dec Nat.eq_dec k l then Some (f k) else nth_error out k.
Proof.
  induction l as [|i l IH]; intros out ND H.
  - exists out; repeat split; auto.
  - inversion ND as [|? ? NI ND']; subst; destruct (H i) as [Hi Eg]; [simpl; auto|].
    cbn [for_list]; rewrite Eg; cbn [bind]; rewrite vset_ok by exact Hi; cbn [bind].
    destruct (IH (list_upd i (f i) out) ND') as (o & E & L & Ho).
    { intros j Hj; rewrite list_upd_length; apply H; simpl; auto. }
    rewrite list_upd_length in L.
    exists o; split; auto; split; auto; intros k; rewrite Ho.
    destruct (in_dec Nat.eq_dec k l) as [I1|I1], (in_dec Nat.eq_dec k (i :: l)) as [I2|I2]; auto.
    + exfalso; apply I2; right; auto.
    + destruct I2 as [->|I2]; [apply list_upd_same; auto | contradiction].
    + apply list_upd_other; intros ->; apply I2; left; auto.
Qed.

Lemma fill_ok {B} s n (d : B) g f :
  sched1_ok s -> (forall i, i < n -> g i = Ok (f i)) -> fill s n d g = Ok (map f (seq 0 n)).
Proof.
  intros Hs Hg; unfold fill.
  destruct (fill_loop g f (s n) (repeat d n)) as (o & E & L & Ho).
  - eapply Permutation_NoDup; [apply Permutation_sym, Hs | apply seq_NoDup].
  - intros i Hi; apply sched1_in in Hi; auto; rewrite repeat_length; auto.
  - rewrite E; f_equal; apply nth_error_ext_len; [rewrite L, repeat_length, map_length, seq_length; reflexivity|].
    intros k Hk; rewrite Ho; rewrite L, repeat_length in Hk.
    destruct (in_dec Nat.eq_dec k (s n)) as [I|I].
    + symmetry; rewrite nth_error_map, nth_error_seq by exact Hk; reflexivity.
    + exfalso; apply I, sched1_in; auto.
Qed.

Lemma image_data_map {B} (g : nat -> B) ds : 0 < prodn ds ->
  exists o, image_data (map g (seq 0 (prodn ds))) ds = Ok o /\ ReprN o ds (fun idx => g (off ds idx)).
Proof.
  intros Hp; exists (mkImage ds (map g (seq 0 (prodn ds)))); split.
  - unfold image_data; destruct (map g (seq 0 (prodn ds))) as [|a l] eqn:E.
    + apply (f_equal (@length B)) in E; rewrite map_length, seq_length in E; simpl in E; lia.
    + rewrite <- E, map_length, seq_length, Nat.eqb_refl; reflexivity.
  - split; [reflexivity|]; split; [cbn [pix]; rewrite map_length, seq_length; reflexivity|].
    intros idx HI; cbn [pix]; rewrite nth_error_map, nth_error_seq by (apply off_lt, HI); reflexivity.
Qed.

Lemma image_data_nil {A} ds : @image_data A [] ds = Throw RuntimeError.
Proof. reflexivity. Qed.

(** a parallel loop over the pixels followed by the data constructor *)
Lemma fill_image {B} s (d : B) ds g (F : list nat -> B) :
  sched1_ok s -> 0 < prodn ds ->
  (forall idx, in_range ds idx -> g (off ds idx) = Ok (F idx)) ->
  exists o, (let* data := fill s (prodn ds) d g in image_data data ds) = Ok o /\ ReprN o ds F.
Proof.
  intros Hs Hp Hg.
  rewrite (fill_ok s (prodn ds) d g (fun i => F (unoff ds i))) by
    (auto; intros i Hi; destruct (unoff_spec ds i Hi) as [IR Ei]; rewrite <- Ei at 1; apply Hg, IR).
  cbn [bind]; destruct (image_data_map (fun i => F (unoff ds i)) ds Hp) as (o & E & R).
  exists o; split; auto; eapply ReprN_ext; eauto; intros idx HI; cbv beta; rewrite off_unoff; auto.
Qed.

Lemma vget_ReprN {A} (im : image A) ds f idx :
  ReprN im ds f -> in_range ds idx -> vget (pix im) (off ds idx) = Ok (f idx).
Proof. intros (D & L & H) HI; apply vget_ok, H, HI. Qed.

Lemma ReprN_dims {A} (im : image A) ds f : ReprN im ds f -> dims im = ds.
Proof. intros (D & _); exact D. Qed.
Lemma ReprN_length {A} (im : image A) ds f : ReprN im ds f -> length (pix im) = prodn ds.
Proof. intros (_ & L & _); exact L. Qed.
Lemma ReprN_count {A} (im : image A) ds f : ReprN im ds f -> count im = prodn ds.
Proof. intros (D & _); unfold count; rewrite D; reflexivity. Qed.

Lemma check_size_same_ReprN {A B} (x : image A) (y : image B) ds f g :
  ReprN x ds f -> ReprN y ds g -> check_size_same x y = Ok tt.
Proof.
  intros Rx Ry; unfold check_size_same; rewrite (ReprN_dims _ _ _ Rx), (ReprN_dims _ _ _ Ry).
  assert (E : size_eqb ds ds = true) by (apply size_eqb_spec; reflexivity); rewrite E; reflexivity.
Qed.

Lemma check_size_same_differ {A B} (x : image A) (y : image B) :
  dims x <> dims y -> check_size_same x y = Throw RuntimeError.
Proof.
  intros H; unfold check_size_same; destruct (size_eqb (dims x) (dims y)) eqn:E; auto.
  apply size_eqb_spec in E; contradiction.
Qed.

(** ** arrays *)
Lemma array_op_spec {A} (junk : list A) f a b :
  length junk = length a -> length b = length a ->
  exists o, array_op junk f a b = Ok o /\ length o = length a /\
    forall k x y, nth_error a k = Some x -> nth_error b k = Some y -> nth_error o k = Some (f x y).
Proof.
  intros Lj Lb; unfold array_op.
  destruct (for_range_inv (length a)
    (fun i o => length o = length a /\
       forall k x y, k < i -> nth_error a k = Some x -> nth_error b k = Some y -> nth_error o k = Some (f x y))
    (fun i out => let* x := vget a i in let* y := vget b i in vset out i (f x y)) junk) as (o & E & L & H).
  - split; auto; intros; lia.
  - intros i o Hi (L & H).
    destruct (vget_lt a i Hi) as (x & Ex & Nx); rewrite Ex; cbn [bind].
    destruct (vget_lt b i ltac:(lia)) as (y & Ey & Ny); rewrite Ey; cbn [bind].
    rewrite vset_ok by lia; eexists; split; [reflexivity|]; rewrite list_upd_length; split; auto.
    intros k u v Hk Hu Hv; destruct (Nat.eq_dec k i) as [->|Ne].
    + assert (u = x) by congruence; assert (v = y) by congruence; subst; apply list_upd_same; lia.
    + rewrite list_upd_other by auto; apply H; auto; lia.
  - exists o; split; auto; split; auto; intros k x y Hx Hy; apply (H k); auto.
    apply nth_error_Some; congruence.
Qed.

Lemma array_op_undo {A} (junk junk' : list A) f g a b c :
  length junk = length a -> length junk' = length a -> length b = length a ->
  (forall k x y, nth_error a k = Some x -> nth_error b k = Some y -> g (f x y) y = x) ->
  array_op junk f a b = Ok c -> array_op junk' g c b = Ok a.
Proof.
  intros L1 L2 Lb Hgf Ec.
  destruct (array_op_spec junk f a b L1 Lb) as (c' & Ec' & Lc & Hc).
  rewrite Ec' in Ec; injection Ec as ->.
  destruct (array_op_spec junk' g c b) as (o & Eo & Lo & Ho); try lia.
  rewrite Eo; f_equal; apply nth_error_ext_len; [lia|]; intros k Hk.
  destruct (nth_error_lt a k) as [x Ex]; [lia|]; destruct (nth_error_lt b k) as [y Ey]; [lia|].
  rewrite (Ho k (f x y) y (Hc k x y Ex Ey) Ey), Ex; f_equal; eapply Hgf; eauto.
Qed.

Lemma length3 {A} (l : list A) : length l = 3 -> exists a b c, l = [a; b; c].
Proof. destruct l as [|a [|b [|c [|? ?]]]]; simpl; intros H; try lia; eauto. Qed.

(** the three-channel loop with an arbitrary uninitialised local *)
Lemma array3_op_spec {A} (f : A -> A -> A) junk x0 x1 x2 y0 y1 y2 :
  length junk = 3 -> array3_op f junk [x0; x1; x2] [y0; y1; y2] = Ok [f x0 y0; f x1 y1; f x2 y2].
Proof. intros H; destruct (length3 junk H) as (a & b & c & ->); reflexivity. Qed.

(** ** two-operand transforms *)
Lemma pixelwise2_ReprN {A B C} (f : A -> B -> C) x y ds fx fy :
  ReprN x ds fx -> ReprN y ds fy -> 0 < prodn ds ->
  exists o, pixelwise2 f x y = Ok o /\ ReprN o ds (fun idx => f (fx idx) (fy idx)).
Proof.
  intros Rx Ry Hp; unfold pixelwise2.
  destruct (transform2_spec f (pix x) (pix y)) as (r & E & L & H).
  { rewrite (ReprN_length _ _ _ Rx), (ReprN_length _ _ _ Ry); reflexivity. }
  rewrite E; cbn [bind]; rewrite (ReprN_dims _ _ _ Rx).
  rewrite (ReprN_length _ _ _ Rx) in L.
  exists (mkImage ds r); split.
  - unfold image_data; destruct r as [|a r]; [simpl in L; lia|]; rewrite L, Nat.eqb_refl; reflexivity.
  - split; [reflexivity|]; split; [exact L|]; intros idx HI; cbn [pix].
    apply H; [apply Rx, HI | apply Ry, HI].
Qed.

Lemma transform2M_spec {B C D} (f : B -> C -> res D) (g : B -> C -> D) l1 : forall l2,
  (forall k a b, nth_error l1 k = Some a -> nth_error l2 k = Some b -> f a b = Ok (g a b)) ->
  transform2M f l1 l2 = transform2 g l1 l2.
Proof.
  induction l1 as [|a l1 IH]; intros [|b l2] H; simpl; auto.
  rewrite (H 0 a b) by reflexivity; cbn [bind]; rewrite (IH l2); auto.
  intros k u v Hu Hv; exact (H (S k) u v Hu Hv).
Qed.

Lemma transform2_short {B C D} (f : B -> C -> D) l1 : forall l2, length l2 < length l1 -> transform2 f l1 l2 = UB.
Proof.
  induction l1 as [|a l1 IH]; intros [|b l2] H; simpl in *; try lia; auto.
  rewrite IH by lia; reflexivity.
Qed.

(** ** planes *)
Section Planes.
  Context {A : Type}.
  Variable s : nat -> list nat.
  Hypothesis Hs : sched1_ok s.
  Variable d : list A.
  Variable d1 : A.

  Lemma construct3_ReprN r g b ds fr fg fb :
    ReprN r ds fr -> ReprN g ds fg -> ReprN b ds fb -> 0 < prodn ds ->
    exists o, construct3 s d r g b = Ok o /\ ReprN o ds (fun i => [fr i; fg i; fb i]).
  Proof.
    intros Rr Rg Rb Hp; unfold construct3.
    rewrite (check_size_same_ReprN _ _ _ _ _ Rr Rg), (check_size_same_ReprN _ _ _ _ _ Rg Rb); cbn [bind].
    rewrite (ReprN_count _ _ _ Rr), (ReprN_dims _ _ _ Rr).
    apply fill_image; auto; intros idx HI.
    rewrite (vget_ReprN _ _ _ _ Rr HI), (vget_ReprN _ _ _ _ Rg HI), (vget_ReprN _ _ _ _ Rb HI); reflexivity.
  Qed.

  Lemma construct1_ReprN p ds f :
    ReprN p ds f -> 0 < prodn ds -> exists o, construct1 s d p = Ok o /\ ReprN o ds (fun i => [f i]).
  Proof.
    intros Rp Hp; unfold construct1; rewrite (ReprN_count _ _ _ Rp), (ReprN_dims _ _ _ Rp).
    apply fill_image; auto; intros idx HI; rewrite (vget_ReprN _ _ _ _ Rp HI); reflexivity.
  Qed.

  Lemma construct2_ReprN p q ds f g :
    ReprN p ds f -> ReprN q ds g -> 0 < prodn ds ->
    exists o, construct2 s d p q = Ok o /\ ReprN o ds (fun i => [f i; g i]).
  Proof.
    intros Rp Rq Hp; unfold construct2; rewrite (check_size_same_ReprN _ _ _ _ _ Rp Rq); cbn [bind].
    rewrite (ReprN_count _ _ _ Rp), (ReprN_dims _ _ _ Rp).
    apply fill_image; auto; intros idx HI.
    rewrite (vget_ReprN _ _ _ _ Rp HI), (vget_ReprN _ _ _ _ Rq HI); reflexivity.
  Qed.

  Lemma add_channel_ReprN im p ds f g :
    ReprN im ds f -> ReprN p ds g ->
    exists o, add_channel d im p = Ok o /\ ReprN o ds (fun i => f i ++ [g i]).
  Proof.
    intros Ri Rp; unfold add_channel, add_channel_vec.
    rewrite (ReprN_dims _ _ _ Ri), (ReprN_dims _ _ _ Rp), (ReprN_length _ _ _ Ri), (ReprN_length _ _ _ Rp).
    assert (E : size_eqb ds ds = true) by (apply size_eqb_spec; reflexivity); rewrite E, Nat.eqb_refl; cbn [negb].
    rewrite (fill_ok seq0 (prodn ds) d _ (fun i => f (unoff ds i) ++ [g (unoff ds i)])).
    2:{ exact sched1_seq0. }
    2:{ intros i Hi; destruct (unoff_spec ds i Hi) as [IR Ei]; rewrite <- Ei.
        rewrite (vget_ReprN _ _ _ _ Ri IR), (vget_ReprN _ _ _ _ Rp IR); cbn [bind]; rewrite off_unoff; auto. }
    cbn [bind]; unfold image_data_rvalue; rewrite map_length, seq_length, Nat.eqb_refl; cbn [negb].
    eexists; split; [reflexivity|].
    split; [reflexivity|]; split; [cbn [pix]; rewrite map_length, seq_length; reflexivity|].
    intros idx HI; cbn [pix]; rewrite nth_error_map, nth_error_seq by (apply off_lt, HI); cbn [option_map].
    rewrite Nat.add_0_l, off_unoff; auto.
  Qed.

  (** any positive number of planes of the same extents *)
  Lemma construct_multichannel_ReprN ps fs ds :
    Forall2 (fun p f => ReprN p ds f) ps fs -> ps <> [] -> 0 < prodn ds ->
    exists o, construct_multichannel s d ps = Ok o /\ ReprN o ds (fun i => map (fun f => f i) fs).
  Proof.
    intros HF Hn Hp.
    destruct HF as [|p1 f1 ps fs R1 HF]; [congruence|].
    destruct HF as [|p2 f2 ps fs R2 HF]; [apply construct1_ReprN; auto|].
    destruct HF as [|p3 f3 ps fs R3 HF]; [apply construct2_ReprN; auto|].
    unfold construct_multichannel.
    destruct (construct3_ReprN p1 p2 p3 ds f1 f2 f3 R1 R2 R3 Hp) as (o & E & Ro); rewrite E; cbn [bind].
    assert (G : forall ps fs, Forall2 (fun p f => ReprN p ds f) ps fs -> forall o h, ReprN o ds h ->
      exists o', for_list ps (fun p o => add_channel d o p) o = Ok o' /\ ReprN o' ds (fun i => h i ++ map (fun f => f i) fs)).
    { clear -s; intros ps fs HF; induction HF as [|p f ps fs R HF IH]; intros o h Ro.
      - exists o; split; auto; eapply ReprN_ext; eauto; intros; simpl; rewrite app_nil_r; reflexivity.
      - cbn [for_list]; destruct (add_channel_ReprN o p ds h f Ro R) as (o1 & E1 & R1); rewrite E1; cbn [bind].
        destruct (IH o1 _ R1) as (o2 & E2 & R2); exists o2; split; auto.
        eapply ReprN_ext; eauto; intros; cbv beta; rewrite <- app_assoc; reflexivity. }
    destruct (G ps fs HF o _ Ro) as (o' & E' & Ro'); exists o'; split; auto.
  Qed.

  Lemma get_plane_ReprN im ds f k g :
    ReprN im ds f -> 0 < prodn ds -> (forall i, in_range ds i -> nth_error (f i) k = Some (g i)) ->
    exists o, get_plane s d1 im k = Ok o /\ ReprN o ds g.
  Proof.
    intros Ri Hp Hk; unfold get_plane; rewrite (ReprN_count _ _ _ Ri), (ReprN_dims _ _ _ Ri).
    apply fill_image; auto; intros idx HI; rewrite (vget_ReprN _ _ _ _ Ri HI); cbn [bind].
    apply vget_ok, Hk, HI.
  Qed.

  (** the channel index is not checked *)
  Lemma get_plane_UB im ds f k :
    ReprN im ds f -> 0 < prodn ds -> (forall i, in_range ds i -> length (f i) <= k) ->
    get_plane s d1 im k = UB.
  Proof.
    intros Ri Hp Hk; unfold get_plane, fill; rewrite (ReprN_count _ _ _ Ri).
    destruct (s (prodn ds)) as [|i l] eqn:El.
    { pose proof (Hs (prodn ds)) as P; rewrite El in P; apply Permutation_length in P; rewrite seq_length in P; simpl in P; lia. }
    assert (Hi : i < prodn ds) by (apply (sched1_in s); auto; rewrite El; simpl; auto).
    cbn [for_list]; destruct (unoff_spec ds i Hi) as [IR Ei]; rewrite <- Ei.
    rewrite (vget_ReprN _ _ _ _ Ri IR); cbn [bind]; unfold vget.
    rewrite (proj2 (nth_error_None _ _)) by (apply Hk, IR); reflexivity.
  Qed.
End Planes.

(** operation on each plane *)
Lemma apply_each3_ReprN {A B} s (d1 : A) (d : list B) op im ds f F :
  sched1_ok s -> ReprN im ds f -> 0 < prodn ds -> (forall i, in_range ds i -> length (f i) = 3) ->
  forall ds', 0 < prodn ds' ->
  (forall k p, k < 3 -> (exists g, ReprN p ds g /\ forall i, in_range ds i -> nth_error (f i) k = Some (g i)) ->
     exists o, op p = Ok o /\ ReprN o ds' (F k)) ->
  exists o, apply_each3 s d1 d op im = Ok o /\ ReprN o ds' (fun i => [F 0 i; F 1 i; F 2 i]).
Proof.
  intros Hs Ri Hp H3 ds' Hp' Hop; unfold apply_each3.
  assert (P : forall k, k < 3 -> exists p o, get_plane s d1 im k = Ok p /\ op p = Ok o /\ ReprN o ds' (F k)).
  { intros k Hk.
    destruct (get_plane_ReprN s Hs d1 im ds f k (fun i => nth k (f i) d1) Ri Hp) as (p & E & R).
    { intros i HI; apply nth_error_nth'; rewrite H3; auto. }
    destruct (Hop k p Hk) as (o & Eo & Ro); [|eauto].
    eexists; split; eauto; intros i HI; apply nth_error_nth'; rewrite H3; auto. }
  destruct (P 0 ltac:(lia)) as (p0 & o0 & E0 & O0 & R0); rewrite E0; cbn [bind]; rewrite O0; cbn [bind].
  destruct (P 1 ltac:(lia)) as (p1 & o1 & E1 & O1 & R1); rewrite E1; cbn [bind]; rewrite O1; cbn [bind].
  destruct (P 2 ltac:(lia)) as (p2 & o2 & E2 & O2 & R2); rewrite E2; cbn [bind]; rewrite O2; cbn [bind].
  apply construct3_ReprN; auto.
Qed.

Lemma apply_each_pixel_ReprN {A B} s (d : B) (op : A -> B) im ds f :
  sched1_ok s -> ReprN im ds f -> 0 < prodn ds ->
  exists o, apply_each_pixel s d op im = Ok o /\ ReprN o ds (fun i => op (f i)).
Proof.
  intros Hs Ri Hp; unfold apply_each_pixel; rewrite (ReprN_count _ _ _ Ri), (ReprN_dims _ _ _ Ri).
  apply fill_image; auto; intros idx HI; rewrite (vget_ReprN _ _ _ _ Ri HI); reflexivity.
Qed.

Lemma pixelwise1_policy_ReprN {A B} s (d : B) (op : A -> B) im ds f :
  sched1_ok s -> ReprN im ds f -> 0 < prodn ds ->
  exists o, pixelwise1_policy s d op im = Ok o /\ ReprN o ds (fun i => op (f i)).
Proof.
  intros Hs Ri Hp; unfold pixelwise1_policy; rewrite (ReprN_length _ _ _ Ri), (ReprN_dims _ _ _ Ri).
  apply fill_image; auto; intros idx HI; rewrite (vget_ReprN _ _ _ _ Ri HI); reflexivity.
Qed.

Lemma pixelwise1_ReprN {A B} (op : A -> B) im ds f :
  ReprN im ds f -> 0 < prodn ds -> exists o, pixelwise1 op im = Ok o /\ ReprN o ds (fun i => op (f i)).
Proof.
  intros Ri Hp; unfold pixelwise1; rewrite (ReprN_dims _ _ _ Ri).
  pose proof (ReprN_length _ _ _ Ri) as L.
  exists (mkImage ds (map op (pix im))); split.
  - unfold image_data; destruct (pix im) as [|a l] eqn:E; [simpl in L; lia|]; rewrite <- E in *.
    destruct (map op (pix im)) eqn:Em; [rewrite E in Em; discriminate|]; rewrite <- Em, map_length, L, Nat.eqb_refl; reflexivity.
  - split; [reflexivity|]; split; [cbn [pix]; rewrite map_length; exact L|].
    intros idx HI; cbn [pix]; apply nth_error_map_some, Ri, HI.
Qed.

(** ** addition of images *)
Lemma add_images_ReprN {A} (plus : A -> A -> A) ds : 0 < prodn ds -> forall ims fs, Forall2 (fun p f => ReprN p ds f) ims fs ->
  forall im f, ReprN im ds f ->
  exists o, add_images plus im ims = Ok o /\
    ReprN o ds (fun i => fold_right (fun h acc => fun x => plus x (acc (h i))) (fun x => x) fs (f i)).
Proof.
  intros Hp ims fs HF; induction HF as [|p g ims fs R HF IH]; intros im f Ri; cbn [add_images fold_right].
  - exists im; split; auto.
  - destruct (IH p g R) as (r & E & Rr); rewrite E; cbn [bind].
    apply (pixelwise2_ReprN plus im r ds _ _ Ri Rr Hp).
Qed.

Lemma subtract_rgb_ReprN junk x y ds fx fy :
  length junk = 3 -> ReprN x ds fx -> ReprN y ds fy -> 0 < prodn ds ->
  (forall i, in_range ds i -> length (fx i) = 3 /\ length (fy i) = 3) ->
  exists o, subtract_rgb junk x y = Ok o /\
    ReprN o ds (fun i => map (fun p => clamp255 (fst p - snd p)) (combine (fx i) (fy i))).
Proof.
  intros Hj Rx Ry Hp H3; unfold subtract_rgb; rewrite (check_size_same_ReprN _ _ _ _ _ Rx Ry); cbn [bind].
  rewrite (transform2M_spec (rgb_sat_sub junk) (fun a b => map (fun p => clamp255 (fst p - snd p)) (combine a b))).
  - apply (pixelwise2_ReprN (fun a b => map (fun p => clamp255 (fst p - snd p)) (combine a b)) x y ds fx fy Rx Ry Hp).
  - intros k a b Ha Hb.
    assert (Hk : k < prodn ds) by (rewrite <- (ReprN_length _ _ _ Rx); apply nth_error_Some; congruence).
    destruct (unoff_spec ds k Hk) as [IR Ek]; destruct (H3 _ IR) as [La Lb].
    destruct Rx as (_ & _ & Hx), Ry as (_ & _ & Hy); rewrite <- Ek in Ha, Hb.
    rewrite (Hx _ IR) in Ha; rewrite (Hy _ IR) in Hb; injection Ha as <-; injection Hb as <-.
    destruct (length3 _ La) as (a0 & a1 & a2 & ->), (length3 _ Lb) as (b0 & b1 & b2 & ->), (length3 junk Hj) as (j0 & j1 & j2 & ->).
    reflexivity.
Qed.
Lemma subtract3_ReprN {A} (op : A -> A -> A) junk x y ds fx fy :
  length junk = 3 -> ReprN x ds fx -> ReprN y ds fy -> 0 < prodn ds ->
  (forall i, in_range ds i -> length (fx i) = 3 /\ length (fy i) = 3) ->
  exists o, subtract3 op junk x y = Ok o /\
    ReprN o ds (fun i => map (fun p => op (fst p) (snd p)) (combine (fx i) (fy i))).
Proof.
  intros Hj Rx Ry Hp H3; unfold subtract3; rewrite (check_size_same_ReprN _ _ _ _ _ Rx Ry); cbn [bind].
  rewrite (transform2M_spec (array3_op op junk) (fun a b => map (fun p => op (fst p) (snd p)) (combine a b))).
  - apply (pixelwise2_ReprN (fun a b => map (fun p => op (fst p) (snd p)) (combine a b)) x y ds fx fy Rx Ry Hp).
  - intros k a b Ha Hb.
    assert (Hk : k < prodn ds) by (rewrite <- (ReprN_length _ _ _ Rx); apply nth_error_Some; congruence).
    destruct (unoff_spec ds k Hk) as [IR Ek]; destruct (H3 _ IR) as [La Lb].
    destruct Rx as (_ & _ & Hx), Ry as (_ & _ & Hy); rewrite <- Ek in Ha, Hb.
    rewrite (Hx _ IR) in Ha; rewrite (Hy _ IR) in Hb; injection Ha as <-; injection Hb as <-.
    destruct (length3 _ La) as (a0 & a1 & a2 & ->), (length3 _ Lb) as (b0 & b1 & b2 & ->), (length3 junk Hj) as (j0 & j1 & j2 & ->).
    reflexivity.
Qed.

Lemma multiplies_scalar_ReprN {A B C} (times : A -> B -> C) (d k : B) x ds f :
  ReprN x ds f -> 0 < prodn ds ->
  exists o, multiplies_scalar times d k x = Ok o /\ ReprN o ds (fun i => times (f i) k).
Proof.
  intros Rx Hp; unfold multiplies_scalar; rewrite (ReprN_count _ _ _ Rx), (ReprN_dims _ _ _ Rx).
  assert (E : image_data (repeat d (prodn ds)) ds = Ok (mkImage ds (repeat d (prodn ds)))).
  { unfold image_data; destruct (prodn ds) eqn:Ep; [lia|].
    cbn [repeat length]; rewrite repeat_length, Nat.eqb_refl; reflexivity. }
  rewrite E; cbn [bind]; unfold pixelwise_multiplies, set_all_value; cbn [dims pix]; rewrite (ReprN_dims _ _ _ Rx).
  assert (Es : size_eqb ds ds = true) by (apply size_eqb_spec; reflexivity); rewrite Es; cbn [negb].
  apply (pixelwise2_ReprN times x _ ds f (fun _ => k) Rx); auto.
  split; [reflexivity|]; split; [cbn [pix]; rewrite map_length, repeat_length; reflexivity|].
  intros idx HI; cbn [pix]; rewrite nth_error_map, nth_error_repeat_some by (apply off_lt, HI); reflexivity.
Qed.

(** ** conversions *)
Lemma u8_of_double_of_u8 z : (0 <= z < 256)%Z -> u8_of_double (double_of_u8 z) = Ok z.
Proof.
  intros H; unfold u8_of_double, double_of_u8.
  assert (E : Qle_bool 0 (inject_Z z) = true) by (apply Qle_bool_iff; change 0%Q with (inject_Z 0); rewrite <- Zle_Qle; lia).
  rewrite E; cbv zeta; rewrite Qfloor_Z.
  replace ((0 <=? z) && (z <? 256))%Z with true by lia; reflexivity.
Qed.

Lemma convert3_ReprN {A B} s (d : list B) (f : A -> res B) (F : A -> B) im ds g :
  sched1_ok s -> ReprN im ds g -> 0 < prodn ds ->
  (forall i, in_range ds i -> length (g i) = 3 /\ Forall (fun a => f a = Ok (F a)) (g i)) ->
  exists o, convert3 s d f im = Ok o /\ ReprN o ds (fun i => map F (g i)).
Proof.
  intros Hs Ri Hp H; unfold convert3; rewrite (ReprN_count _ _ _ Ri), (ReprN_dims _ _ _ Ri).
  apply fill_image; auto; intros idx HI; rewrite (vget_ReprN _ _ _ _ Ri HI); cbn [bind].
  destruct (H idx HI) as [L HF]; destruct (length3 _ L) as (a & b & c & E); rewrite E in *.
  inversion HF as [|? ? Ha HF1]; subst; inversion HF1 as [|? ? Hb HF2]; subst; inversion HF2 as [|? ? Hc _]; subst.
  cbn [vget nth_error bind]; rewrite Ha, Hb, Hc; reflexivity.
Qed.

(** ** interleavings *)
Section Par.
  Context {B : Type}.
  Variables (n : nat) (g : nat -> res B) (f : nat -> B) (d : B).
  Hypothesis Hg : forall i, i < n -> g i = Ok (f i).

  Definition par_inv (c : nat -> nat) (st : par_state B) : Prop :=
    length (par_out st) = n /\
    (forall k, par_pc st k = Nat.min 2 (c k)) /\
    (forall k, k < n -> 1 <= c k -> par_loc st k = Some (f k)) /\
    (forall k, k < n -> nth_error (par_out st) k = Some (if 2 <=? c k then f k else d)).

  Lemma par_step_inv c st i : i < n -> par_inv c st ->
    exists st', par_step g i st = Ok st' /\ par_inv (fun k => if k =? i then c k + 1 else c k) st'.
  Proof.
    intros Hi (L & Hpc & Hl & Ho); unfold par_step; rewrite Hpc.
    destruct (c i) as [|[|m]] eqn:Ec; cbn [Nat.min]; cbv zeta.
    - rewrite Hg by exact Hi; cbn [bind]; eexists; split; [reflexivity|]; unfold par_inv; cbn [par_out par_pc par_loc].
      split; auto; split; [|split].
      + intros k; destruct (Nat.eqb_spec k i) as [->|]; [rewrite Ec; reflexivity | apply Hpc].
      + intros k Hk H1; destruct (Nat.eqb_spec k i) as [->|]; auto.
      + intros k Hk; rewrite Ho by exact Hk; destruct (Nat.eqb_spec k i) as [->|]; auto; rewrite Ec; reflexivity.
    - rewrite Hl by lia; rewrite vset_ok by lia; cbn [bind]; eexists; split; [reflexivity|].
      unfold par_inv; cbn [par_out par_pc par_loc]; rewrite list_upd_length; split; auto; split; [|split].
      + intros k; destruct (Nat.eqb_spec k i) as [->|]; [rewrite Ec; reflexivity | apply Hpc].
      + intros k Hk H1; destruct (Nat.eqb_spec k i) as [->|]; apply Hl; lia.
      + intros k Hk; destruct (Nat.eqb_spec k i) as [->|].
        * rewrite list_upd_same by lia; rewrite Ec; reflexivity.
        * rewrite list_upd_other by auto; apply Ho, Hk.
    - exists st; split; auto; unfold par_inv; split; auto; split; [|split].
      + intros k; rewrite Hpc; destruct (Nat.eqb_spec k i) as [->|]; [rewrite Ec; lia | reflexivity].
      + intros k Hk H1; apply Hl; auto; destruct (Nat.eqb_spec k i) as [->|]; lia.
      + intros k Hk; rewrite Ho by exact Hk; destruct (Nat.eqb_spec k i) as [->|]; auto; rewrite Ec; reflexivity.
  Qed.

  Lemma par_run_inv trace : forall c st, Forall (fun i => i < n) trace -> par_inv c st ->
    exists st', for_list trace (par_step g) st = Ok st' /\
      par_inv (fun k => c k + count_occ Nat.eq_dec trace k) st'.
  Proof.
    induction trace as [|i trace IH]; intros c st HF HI; cbn [for_list].
    - exists st; split; auto; destruct HI as (H1 & H2 & H3 & H4); unfold par_inv; cbn [count_occ].
      split; auto; split; [|split]; intros k; rewrite Nat.add_0_r; auto.
    - inversion HF as [|? ? Hi HF']; subst.
      destruct (par_step_inv c st i Hi HI) as (st1 & E1 & I1); rewrite E1; cbn [bind].
      destruct (IH _ st1 HF' I1) as (st2 & E2 & I2); exists st2; split; auto.
      assert (C : forall k, (if k =? i then c k + 1 else c k) + count_occ Nat.eq_dec trace k
                            = c k + count_occ Nat.eq_dec (i :: trace) k).
      { intros k; cbn [count_occ]; destruct (Nat.eqb_spec k i) as [Ee|Ne], (Nat.eq_dec i k); try congruence; lia. }
      destruct I2 as (H1 & H2 & H3 & H4); unfold par_inv; split; auto; split; [|split]; intros k; rewrite <- C; auto.
  Qed.

  Lemma par_run_result trace :
    Forall (fun i => i < n) trace -> (forall i, i < n -> 2 <= count_occ Nat.eq_dec trace i) ->
    exists st, par_run n d g trace = Ok st /\ par_out st = map f (seq 0 n).
  Proof.
    intros HF HC; unfold par_run.
    destruct (par_run_inv trace (fun _ => 0) (mkPar (fun _ => 0) (fun _ => None) (repeat d n)) HF) as (st & E & (L & _ & _ & Ho)).
    { unfold par_inv; cbn [par_out par_pc par_loc]; rewrite repeat_length; split; auto; split; [|split]; auto.
      - intros; lia.
      - intros k Hk; apply nth_error_repeat_some, Hk. }
    exists st; split; auto; apply nth_error_ext_len; [rewrite map_length, seq_length; exact L|].
    intros k Hk; rewrite L in Hk; rewrite Ho, nth_error_map, nth_error_seq by exact Hk; cbn [option_map].
    specialize (HC k Hk); destruct (Nat.leb_spec 2 (0 + count_occ Nat.eq_dec trace k)); [reflexivity | lia].
  Qed.
End Par.
