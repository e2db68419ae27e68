(** PropPixel.v - property theorems C10, C29-C31, C70-C72 (pixel values, planes, pixelwise operations).

    [ReprN im ds f]: [im] has extents [ds] and the pixel at index list [i] is [f i].
    [s] is any order of the iterations of a parallel loop ([sched1_ok]). *)
From Coq Require Import ZifyBool ZifyNat QArith Qround.
From Verif Require Import Base ImageModel ImageFacts ImageProofs GeomModel GeomProofs PixelModel PixelProofs.
Open Scope nat_scope.

Definition is_u8 (z : Z) : Prop := (0 <= z < 256)%Z.

(** C10: RGB arithmetic is per channel modulo 256 *)
Theorem C10_rgb_add_sub :
  forall a0 a1 a2 b0 b1 b2,
  rgb_add [a0; a1; a2] [b0; b1; b2] = Ok [(a0 + b0) mod 256; (a1 + b1) mod 256; (a2 + b2) mod 256]%Z /\
  rgb_sub [a0; a1; a2] [b0; b1; b2] = Ok [(a0 - b0) mod 256; (a1 - b1) mod 256; (a2 - b2) mod 256]%Z.
Proof.
  intros; unfold rgb_add, rgb_sub, u8; cbn [vget nth_error bind]; split; auto.
  rewrite (Z.add_comm b0), (Z.add_comm b1), (Z.add_comm b2); reflexivity.
Qed.
Print Assumptions C10_rgb_add_sub.

Theorem C10_rgb_sub_undoes_add :
  forall a b, length a = 3 -> length b = 3 -> Forall is_u8 a -> Forall is_u8 b ->
  (let* c := rgb_add a b in rgb_sub c b) = Ok a /\ (let* c := rgb_sub a b in rgb_add c b) = Ok a /\
  rgb_add a b = rgb_add b a.
Proof.
  intros a b La Lb Fa Fb.
  destruct (length3 a La) as (a0 & a1 & a2 & ->), (length3 b Lb) as (b0 & b1 & b2 & ->).
  repeat match goal with H : Forall _ (_ :: _) |- _ => inversion H; subst; clear H end.
  unfold is_u8, rgb_add, rgb_sub, u8 in *; cbn [vget nth_error bind].
  assert (P : forall x y, (0 <= x < 256 -> 0 <= y < 256 -> ((y + x) mod 256 - y) mod 256 = x)%Z).
  { intros x y Hx Hy; rewrite Zminus_mod_idemp_l; replace (y + x - y)%Z with x by lia; apply Z.mod_small; lia. }
  assert (Q : forall x y, (0 <= x < 256 -> 0 <= y < 256 -> (y + (x - y) mod 256) mod 256 = x)%Z).
  { intros x y Hx Hy; rewrite Zplus_mod_idemp_r; replace (y + (x - y))%Z with x by lia; apply Z.mod_small; lia. }
  rewrite !P, !Q by lia; rewrite (Z.add_comm b0), (Z.add_comm b1), (Z.add_comm b2); auto.
Qed.
Print Assumptions C10_rgb_sub_undoes_add.

(** multichannel values: channel by channel for every channel count and operation; an operation pair inverse on
    channels is inverse on pixels *)
Theorem C10_multichannel :
  forall (A : Type) (junk junk' : list A) (f g : A -> A -> A) a b,
  length junk = length a -> length junk' = length a -> length b = length a ->
  exists c, array_op junk f a b = Ok c /\ length c = length a /\
    (forall k x y, nth_error a k = Some x -> nth_error b k = Some y -> nth_error c k = Some (f x y)) /\
    ((forall x y, In x a -> In y b -> g (f x y) y = x) -> array_op junk' g c b = Ok a).
Proof.
  intros A junk junk' f g a b L1 L2 Lb.
  destruct (array_op_spec junk f a b L1 Lb) as (c & Ec & Lc & Hc).
  exists c; split; auto; split; auto; split; auto.
  intros Hgf; apply (array_op_undo junk junk' f g a b c); auto.
  intros k x y Hx Hy; apply Hgf; eapply nth_error_In; eauto.
Qed.
Print Assumptions C10_multichannel.

(** points: coordinates modulo 2^64 (a difference below zero wraps) and subtraction undoes addition *)
Theorem C10_point :
  forall (junk junk' : list nat) a b, length junk = length a -> length junk' = length a -> length b = length a ->
  Forall fits a -> Forall fits b ->
  exists c e, point_add junk a b = Ok c /\ point_sub junk' c b = Ok a /\ point_sub junk a b = Ok e /\
    (forall k x y, nth_error a k = Some x -> nth_error b k = Some y ->
       nth_error c k = Some (Z.to_nat ((Z.of_nat x + Z.of_nat y) mod 2 ^ 64)) /\
       nth_error e k = Some (Z.to_nat ((Z.of_nat x - Z.of_nat y) mod 2 ^ 64))).
Proof.
  intros junk junk' a b L1 L2 Lb Fa Fb; unfold point_add, point_sub.
  destruct (array_op_spec junk uadd a b L1 Lb) as (c & Ec & Lc & Hc).
  destruct (array_op_spec junk usub a b L1 Lb) as (e & Ee & Le & He).
  exists c, e; split; auto; split; [|split; auto].
  - apply (array_op_undo junk junk' uadd usub a b c); auto.
    intros k x y Hx Hy; apply nth_error_In in Hx, Hy; rewrite Forall_forall in Fa, Fb.
    specialize (Fa x Hx); specialize (Fb y Hy); unfold fits in *; unfold uadd, usub, wn, w64.
    assert (T : (0 < two64)%Z) by (unfold two64; lia).
    pose proof (Z.mod_pos_bound (Z.of_nat x + Z.of_nat y) two64 T) as B1.
    rewrite Z2Nat.id by lia; rewrite Zminus_mod_idemp_l.
    replace (Z.of_nat x + Z.of_nat y - Z.of_nat y)%Z with (Z.of_nat x) by lia; rewrite Z.mod_small by lia; lia.
  - intros k x y Hx Hy; split; [rewrite (Hc k x y Hx Hy) | rewrite (He k x y Hx Hy)]; reflexivity.
Qed.
Print Assumptions C10_point.

Example C10_example :
  rgb_add [250; 3; 255]%Z [10; 4; 255]%Z = Ok [4; 7; 254]%Z /\ rgb_sub [4; 7; 254]%Z [10; 4; 255]%Z = Ok [250; 3; 255]%Z /\
  array_op [0; 0; 0; 0] Nat.add [1; 2; 3; 4] [5; 6; 7; 8] = Ok [6; 8; 10; 12].
Proof. repeat split. Qed.

(** C29: a parallel loop whose tasks write their own element gives, in every order of the tasks and in every
    interleaving of their steps, the result of the sequential loop *)
Theorem C29_any_order :
  forall (B : Type) s n (d : B) (g : nat -> res B) (f : nat -> B),
  sched1_ok s -> (forall i, i < n -> g i = Ok (f i)) ->
  fill s n d g = fill seq0 n d g /\ fill s n d g = Ok (map f (seq 0 n)).
Proof. intros B s n d g f Hs Hg; rewrite !(fill_ok _ n d g f) by (auto using sched1_seq0); auto. Qed.
Print Assumptions C29_any_order.

Theorem C29_any_interleaving :
  forall (B : Type) n (d : B) (g : nat -> res B) (f : nat -> B) trace,
  (forall i, i < n -> g i = Ok (f i)) ->
  Forall (fun i => i < n) trace -> (forall i, i < n -> 2 <= count_occ Nat.eq_dec trace i) ->
  exists st, par_run n d g trace = Ok st /\ fill seq0 n d g = Ok (par_out st).
Proof.
  intros B n d g f trace Hg HF HC; destruct (par_run_result n g f d Hg trace HF HC) as (st & E & Eo).
  exists st; split; auto; rewrite (fill_ok seq0 n d g f sched1_seq0 Hg), Eo; reflexivity.
Qed.
Print Assumptions C29_any_interleaving.

Theorem C29_apply_each_pixel :
  forall (A B : Type) s (d : B) (op : A -> B) im ds f, sched1_ok s -> ReprN im ds f -> 0 < prodn ds ->
  exists o, ReprN o ds (fun i => op (f i)) /\ apply_each_pixel s d op im = Ok o /\
    pixelwise1_policy s d op im = Ok o /\ pixelwise1 op im = Ok o.
Proof.
  intros A B s d op im ds f Hs R Hp.
  destruct (apply_each_pixel_ReprN s d op im ds f Hs R Hp) as (o & E & Ro).
  destruct (pixelwise1_policy_ReprN s d op im ds f Hs R Hp) as (o1 & E1 & Ro1).
  destruct (pixelwise1_ReprN op im ds f R Hp) as (o2 & E2 & Ro2).
  assert (o1 = o) as -> by (eapply ReprN_unique; eauto).
  assert (o2 = o) as -> by (eapply ReprN_unique; eauto).
  exists o; auto.
Qed.
Print Assumptions C29_apply_each_pixel.

Theorem C29_transpose :
  forall (A : Type) (d : A) sg (im : image A) w h f, sched_ok sg -> Repr im w h f ->
  transpose_policy d sg im = transpose d im.
Proof.
  intros A d sg im w h f Hsg R.
  destruct (transpose_Repr d im w h f R) as (o & E & Ro), (transpose_policy_Repr d sg Hsg im w h f R) as (o' & E' & Ro').
  rewrite E, E'; f_equal; eapply Repr_unique; eauto.
Qed.
Print Assumptions C29_transpose.

Example C29_example :
  (exists st, par_run 2 0 (fun i => Ok (10 + i)) [1; 0; 1; 0] = Ok st /\ par_out st = [10; 11]) /\
  fill (fun n => rev (seq 0 n)) 3 0 (fun i => Ok (i * i)) = Ok [0; 1; 4] /\ sched1_ok (fun n => rev (seq 0 n)).
Proof.
  split; [eexists; split; [reflexivity | reflexivity]|]; split; [reflexivity|].
  intros n; apply Permutation_sym, Permutation_rev.
Qed.

(** C30: three planes *)
Theorem C30_planes_of_construct :
  forall (A : Type) s (d : list A) (d1 : A) r g b ds fr fg fb,
  sched1_ok s -> ReprN r ds fr -> ReprN g ds fg -> ReprN b ds fb -> 0 < prodn ds ->
  exists o, construct3 s d r g b = Ok o /\ ReprN o ds (fun i => [fr i; fg i; fb i]) /\
    get_plane s d1 o 0 = Ok r /\ get_plane s d1 o 1 = Ok g /\ get_plane s d1 o 2 = Ok b.
Proof.
  intros A s d d1 r g b ds fr fg fb Hs Rr Rg Rb Hp.
  destruct (construct3_ReprN s Hs d r g b ds fr fg fb Rr Rg Rb Hp) as (o & E & Ro).
  exists o; split; auto; split; auto.
  assert (P : forall k p fp, ReprN p ds fp -> (forall i, in_range ds i -> nth_error [fr i; fg i; fb i] k = Some (fp i)) ->
    get_plane s d1 o k = Ok p).
  { intros k p fp Rp Hk; destruct (get_plane_ReprN s Hs d1 o ds _ k fp Ro Hp Hk) as (q & Eq & Rq).
    rewrite Eq; f_equal; eapply ReprN_unique; eauto. }
  split; [|split]; eapply P; eauto.
Qed.
Print Assumptions C30_planes_of_construct.

Theorem C30_construct_of_planes :
  forall (A : Type) s (d : list A) (d1 : A) im ds f,
  sched1_ok s -> ReprN im ds f -> 0 < prodn ds -> (forall i, in_range ds i -> length (f i) = 3) ->
  (let* r := get_plane s d1 im 0 in let* g := get_plane s d1 im 1 in let* b := get_plane s d1 im 2 in
   construct3 s d r g b) = Ok im.
Proof.
  intros A s d d1 im ds f Hs R Hp H3.
  assert (P : forall k, k < 3 -> exists p, get_plane s d1 im k = Ok p /\ ReprN p ds (fun i => nth k (f i) d1)).
  { intros k Hk; apply (get_plane_ReprN s Hs d1 im ds f k _ R Hp); intros i HI; apply nth_error_nth'; rewrite H3; auto. }
  destruct (P 0 ltac:(lia)) as (r & Er & Rr), (P 1 ltac:(lia)) as (g & Eg & Rg), (P 2 ltac:(lia)) as (b & Eb & Rb).
  rewrite Er, Eg, Eb; cbn [bind].
  destruct (construct3_ReprN s Hs d r g b ds _ _ _ Rr Rg Rb Hp) as (o & E & Ro); rewrite E; f_equal.
  eapply ReprN_unique; eauto; intros i HI; destruct (length3 _ (H3 i HI)) as (x & y & z & ->); reflexivity.
Qed.
Print Assumptions C30_construct_of_planes.

(** any number of channels *)
Theorem C30_multichannel :
  forall (A : Type) s (d : list A) (d1 : A) ps fs ds,
  sched1_ok s -> Forall2 (fun p f => ReprN p ds f) ps fs -> ps <> [] -> 0 < prodn ds ->
  exists o, construct_multichannel s d ps = Ok o /\ ReprN o ds (fun i => map (fun f => f i) fs) /\
    (forall k p, nth_error ps k = Some p -> get_plane_mc s d1 (length ps) o k = Ok p) /\
    (forall k, length ps <= k -> get_plane_mc s d1 (length ps) o k = Throw RuntimeError).
Proof.
  intros A s d d1 ps fs ds Hs HF Hn Hp.
  destruct (construct_multichannel_ReprN s Hs d ps fs ds HF Hn Hp) as (o & E & Ro).
  exists o; split; auto; split; auto; split.
  - intros k p Hk; assert (Lk : k < length ps) by (apply nth_error_Some; congruence).
    unfold get_plane_mc; destruct (Nat.leb_spec (length ps) k); [lia|].
    assert (HX : exists f, nth_error fs k = Some f /\ ReprN p ds f).
    { clear -HF Hk; revert k Hk; induction HF as [|q f ps fs R HF IH]; intros [|k] Hk; try discriminate.
      - injection Hk as <-; exists f; auto.
      - exact (IH k Hk). }
    destruct HX as (f & Hf & Rp).
    destruct (get_plane_ReprN s Hs d1 o ds _ k f Ro Hp) as (q & Eq & Rq).
    { intros i HI; rewrite nth_error_map, Hf; reflexivity. }
    rewrite Eq; f_equal; eapply ReprN_unique; eauto.
  - intros k Hk; unfold get_plane_mc; destruct (Nat.leb_spec (length ps) k); [reflexivity|lia].
Qed.
Print Assumptions C30_multichannel.

(** mismatched extents throw *)
Theorem C30_mismatch_throws :
  forall (A : Type) s (d : list A) (a b c : image A) (m : image (list A)),
  (dims a <> dims b -> construct3 s d a b c = Throw RuntimeError /\ construct2 s d a b = Throw RuntimeError) /\
  (dims b <> dims c -> construct3 s d a b c = Throw RuntimeError) /\
  (dims m <> dims a -> add_channel d m a = Throw RuntimeError).
Proof.
  intros A s d a b c m; unfold construct3, construct2, add_channel; split; [|split].
  - intros H; rewrite (check_size_same_differ a b H); auto.
  - intros H; unfold check_size_same at 1; destruct (size_eqb (dims a) (dims b)); [|reflexivity].
    cbn [bind]; rewrite (check_size_same_differ b c H); reflexivity.
  - intros H; destruct (size_eqb (dims m) (dims a)) eqn:E; [apply size_eqb_spec in E; contradiction | reflexivity].
Qed.
Print Assumptions C30_mismatch_throws.

(** apply_each: an operation on planes is applied to each channel *)
Theorem C30_apply_each :
  forall (A B : Type) s (d1 : A) (d : list B) (op : A -> B) im ds f,
  sched1_ok s -> ReprN im ds f -> 0 < prodn ds -> (forall i, in_range ds i -> length (f i) = 3) ->
  exists o, apply_each3 s d1 d (pixelwise1 op) im = Ok o /\ ReprN o ds (fun i => map op (f i)).
Proof.
  intros A B s d1 d op im ds f Hs R Hp H3.
  destruct (apply_each3_ReprN s d1 d (pixelwise1 op) im ds f (fun k i => op (nth k (f i) d1)) Hs R Hp H3 ds Hp) as (o & E & Ro).
  - intros k p Hk (g & Rg & Hgk); destruct (pixelwise1_ReprN op p ds g Rg Hp) as (q & Eq & Rq).
    exists q; split; auto; eapply ReprN_ext; eauto; intros i HI; cbv beta; f_equal.
    symmetry; apply nth_error_nth; apply Hgk, HI.
  - exists o; split; auto; eapply ReprN_ext; eauto; intros i HI; cbv beta.
    destruct (length3 _ (H3 i HI)) as (x & y & z & ->); reflexivity.
Qed.
Print Assumptions C30_apply_each.

(** the channel index of the RGB and HSV overloads is not checked *)
Theorem C30_plane_index_unchecked :
  forall (A : Type) s (d1 : A) im ds f k, sched1_ok s -> ReprN im ds f -> 0 < prodn ds ->
  (forall i, in_range ds i -> length (f i) = 3) -> 3 <= k -> get_plane s d1 im k = UB.
Proof.
  intros A s d1 im ds f k Hs R Hp H3 Hk; apply (get_plane_UB s Hs d1 im ds f k R Hp).
  intros i HI; rewrite H3; auto.
Qed.
Print Assumptions C30_plane_index_unchecked.

Example C30_example :
  construct3 seq0 [] (mkImage [2; 1] [1; 2]) (mkImage [2; 1] [3; 4]) (mkImage [2; 1] [5; 6])
    = Ok (mkImage [2; 1] [[1; 3; 5]; [2; 4; 6]]) /\
  get_plane seq0 0 (mkImage [2; 1] [[1; 3; 5]; [2; 4; 6]]) 1 = Ok (mkImage [2; 1] [3; 4]) /\
  construct_multichannel seq0 [] (map (fun k => mkImage [1; 1] [k]) [1; 2; 3; 4; 5]) = Ok (mkImage [1; 1] [[1; 2; 3; 4; 5]]).
Proof. repeat split. Qed.

(** C31: subtraction of RGB images clamps each channel difference; of other images it is the plain difference *)
Theorem C31_saturating_subtract :
  forall junk (x y : image (list Z)) ds fx fy,
  length junk = 3 -> ReprN x ds fx -> ReprN y ds fy -> 0 < prodn ds ->
  (forall i, in_range ds i -> length (fx i) = 3 /\ length (fy i) = 3 /\ Forall is_u8 (fx i) /\ Forall is_u8 (fy i)) ->
  exists o g, subtract_rgb junk x y = Ok o /\ ReprN o ds g /\
    forall i, in_range ds i -> length (g i) = 3 /\ Forall is_u8 (g i) /\
      forall c a b, nth_error (fx i) c = Some a -> nth_error (fy i) c = Some b ->
        nth_error (g i) c = Some (Z.max 0 (a - b)).
Proof.
  intros junk x y ds fx fy Hj Rx Ry Hp H.
  destruct (subtract_rgb_ReprN junk x y ds fx fy Hj Rx Ry Hp) as (o & E & Ro).
  { intros i HI; destruct (H i HI) as (? & ? & _); auto. }
  exists o, (fun i => map (fun p => clamp255 (fst p - snd p)) (combine (fx i) (fy i))).
  split; auto; split; auto; intros i HI; destruct (H i HI) as (L1 & L2 & F1 & F2); cbv beta.
  destruct (length3 _ L1) as (a0 & a1 & a2 & Ea), (length3 _ L2) as (b0 & b1 & b2 & Eb); rewrite Ea, Eb in *.
  repeat match goal with H : Forall _ (_ :: _) |- _ => inversion H; subst; clear H end.
  cbn [combine map fst snd length].
  assert (C : forall a b, is_u8 a -> is_u8 b -> clamp255 (a - b) = Z.max 0 (a - b) /\ is_u8 (clamp255 (a - b))).
  { unfold is_u8, clamp255; intros a b Ha Hb; destruct (Z.ltb_spec (a - b) 0), (Z.ltb_spec 255 (a - b)); lia. }
  split; [reflexivity|]; split.
  - do 3 (constructor; [apply C; assumption|]); constructor.
  - intros [|[|[|c]]] a b Ha Hb; cbn [nth_error] in *; try (destruct c; discriminate);
      injection Ha as <-; injection Hb as <-; f_equal; apply C; auto.
Qed.
Print Assumptions C31_saturating_subtract.

Theorem C31_plain_subtract :
  forall (A : Type) (minus : A -> A -> A) (x y : image A) ds fx fy,
  ReprN x ds fx -> ReprN y ds fy -> 0 < prodn ds ->
  exists o, subtract minus x y = Ok o /\ ReprN o ds (fun i => minus (fx i) (fy i)).
Proof.
  intros A minus x y ds fx fy Rx Ry Hp; unfold subtract; rewrite (check_size_same_ReprN _ _ _ _ _ Rx Ry); cbn [bind].
  apply pixelwise2_ReprN; auto.
Qed.
Print Assumptions C31_plain_subtract.

Theorem C31_mismatch_throws :
  forall (A : Type) minus (x y : image A) junk (u v : image (list Z)),
  (dims x <> dims y -> subtract minus x y = Throw RuntimeError) /\
  (dims u <> dims v -> subtract_rgb junk u v = Throw RuntimeError).
Proof.
  intros A minus x y junk u v; unfold subtract, subtract_rgb; split; intros H; rewrite check_size_same_differ by exact H; reflexivity.
Qed.
Print Assumptions C31_mismatch_throws.

Example C31_example :
  subtract_rgb [9; 9; 9]%Z (mkImage [1; 1] [[200; 5; 7]%Z]) (mkImage [1; 1] [[50; 6; 7]%Z]) = Ok (mkImage [1; 1] [[150; 0; 0]%Z]).
Proof. reflexivity. Qed.

(** C70: adding several images adds pixelwise (from the right) ... *)
Theorem C70_add_partial :
  forall (A : Type) (plus : A -> A -> A) ds im f ims fs,
  (forall a b c, plus a (plus b c) = plus (plus a b) c) -> 0 < prodn ds ->
  ReprN im ds f -> Forall2 (fun p g => ReprN p ds g) ims fs ->
  exists o, add_images plus im ims = Ok o /\ ReprN o ds (fun i => fold_left (fun acc g => plus acc (g i)) fs (f i)).
Proof.
  intros A plus ds im f ims fs Hassoc Hp R HF.
  destruct (add_images_ReprN plus ds Hp ims fs HF im f R) as (o & E & Ro).
  exists o; split; auto; eapply ReprN_ext; eauto; intros i HI; cbv beta; clear -Hassoc.
  assert (G : forall fs x, fold_right (fun h acc => fun x => plus x (acc (h i))) (fun x => x) fs x
                           = fold_left (fun acc g => plus acc (g i)) fs x).
  { induction fs0 as [|g fs0 IH]; intros x; cbn [fold_right fold_left]; auto; rewrite <- IH.
    assert (P : forall l a b, plus a (fold_right (fun h acc => fun x => plus x (acc (h i))) (fun x => x) l b)
              = fold_right (fun h acc => fun x => plus x (acc (h i))) (fun x => x) l (plus a b)).
    { intros l a b; destruct l as [|h l]; cbn [fold_right]; auto. }
    apply P. }
  apply G.
Qed.
Print Assumptions C70_add_partial.

(** ... but sizes are not compared: a smaller right operand is read past its end, a larger one is cut off *)
Theorem C70_add_smaller_undefined :
  forall (A : Type) (plus : A -> A -> A) x y, wf x -> wf y -> count y < count x -> add_images plus x [y] = UB.
Proof.
  intros A plus x y Wx Wy H; cbn [add_images bind]; unfold pixelwise2.
  rewrite transform2_short; [reflexivity|]; unfold wf, count in *; lia.
Qed.
Print Assumptions C70_add_smaller_undefined.

Theorem C70_add_refuted :
  (exists x y : image nat, wf x /\ wf y /\ dims x <> dims y /\ add_images Nat.add x [y] = UB) /\
  (exists x y o : image nat, wf x /\ wf y /\ dims x <> dims y /\ add_images Nat.add x [y] = Ok o).
Proof.
  split.
  - exists (mkImage [2; 1] [1; 2]), (mkImage [1; 1] [1]); split; [reflexivity|]; split; [reflexivity|]; split; [discriminate|reflexivity].
  - exists (mkImage [1; 1] [1]), (mkImage [2; 1] [1; 2]), (mkImage [1; 1] [2]); split; [reflexivity|]; split; [reflexivity|]; split; [discriminate|reflexivity].
Qed.
Print Assumptions C70_add_refuted.

Example C70_example :
  add_images Nat.add (mkImage [2; 1] [1; 2]) [mkImage [2; 1] [10; 20]; mkImage [2; 1] [100; 200]] = Ok (mkImage [2; 1] [111; 222]).
Proof. reflexivity. Qed.

(** C71: scalar multiplication and division, threshold, negation *)
Theorem C71_multiplies :
  forall (A B C : Type) (times : A -> B -> C) (d k : B) x ds f, ReprN x ds f -> 0 < prodn ds ->
  exists o, multiplies_scalar times d k x = Ok o /\ ReprN o ds (fun i => times (f i) k).
Proof. intros A B C times d k x ds f; exact (multiplies_scalar_ReprN times d k x ds f). Qed.
Print Assumptions C71_multiplies.

Theorem C71_pixelwise_multiplies :
  forall (A B C : Type) (times : A -> B -> C) x y ds fx fy, ReprN x ds fx -> ReprN y ds fy -> 0 < prodn ds ->
  exists o, pixelwise_multiplies times x y = Ok o /\ ReprN o ds (fun i => times (fx i) (fy i)).
Proof.
  intros A B C times x y ds fx fy Rx Ry Hp; unfold pixelwise_multiplies.
  rewrite (ReprN_dims _ _ _ Rx), (ReprN_dims _ _ _ Ry).
  assert (E : size_eqb ds ds = true) by (apply size_eqb_spec; reflexivity); rewrite E; apply pixelwise2_ReprN; auto.
Qed.
Print Assumptions C71_pixelwise_multiplies.

Theorem C71_multiplies_mismatch_throws :
  forall (A B C : Type) (times : A -> B -> C) x y, dims x <> dims y -> pixelwise_multiplies times x y = Throw RuntimeError.
Proof.
  intros A B C times x y H; unfold pixelwise_multiplies; destruct (size_eqb (dims x) (dims y)) eqn:E; auto.
  apply size_eqb_spec in E; contradiction.
Qed.
Print Assumptions C71_multiplies_mismatch_throws.

Theorem C71_divides_scalar :
  forall (A : Type) (div : A -> A -> A) k x ds f, ReprN x ds f -> 0 < prodn ds ->
  exists o, divides_scalar div k x = Ok o /\ ReprN o ds (fun i => div (f i) k).
Proof.
  intros A div k x ds f R Hp; unfold divides_scalar.
  pose proof (ReprN_length _ _ _ R) as L; pose proof (ReprN_dims _ _ _ R) as D.
  assert (E : image_data (pix x) (dims x) = Ok x).
  { unfold image_data; destruct x as [e p]; cbn [dims pix] in *; subst e; destruct p as [|a p]; [simpl in L; lia|].
    rewrite L, Nat.eqb_refl; reflexivity. }
  rewrite E; cbn [bind]; unfold divides.
  apply (pixelwise2_ReprN div x _ ds f (fun _ => k) R); auto.
  unfold set_all_value; split; [exact D|]; split; [cbn [pix]; rewrite map_length; exact L|].
  intros idx HI; cbn [pix]; apply (nth_error_map_some (fun _ => k) (pix x) _ (f idx)), R, HI.
Qed.
Print Assumptions C71_divides_scalar.

Theorem C71_threshold :
  forall (A : Type) s (d lo hi : A) ltb t im ds f, sched1_ok s -> ReprN im ds f -> 0 < prodn ds ->
  exists o, apply_threshold s d lo hi ltb t im = Ok o /\ ReprN o ds (fun i => if ltb t (f i) then hi else lo).
Proof.
  intros A s d lo hi ltb t im ds f Hs R Hp; unfold apply_threshold.
  exact (apply_each_pixel_ReprN s d (fun p => if ltb t p then hi else lo) im ds f Hs R Hp).
Qed.
Print Assumptions C71_threshold.

(** the absolute difference is symmetric, and zero exactly on equal pixels *)
Theorem C71_difference :
  forall (x y : image Z) ds fx fy, ReprN x ds fx -> ReprN y ds fy -> 0 < prodn ds ->
  exists o, difference x y = Ok o /\ difference y x = Ok o /\ ReprN o ds (fun i => Z.abs (fx i - fy i)).
Proof.
  intros x y ds fx fy Rx Ry Hp; unfold difference.
  set (df := fun a b => if (b <? a)%Z then (a - b)%Z else (b - a)%Z).
  assert (A : forall a b, df a b = Z.abs (a - b)) by (intros a b; unfold df; destruct (Z.ltb_spec b a); lia).
  destruct (pixelwise2_ReprN df x y ds fx fy Rx Ry Hp) as (o & E & Ro).
  destruct (pixelwise2_ReprN df y x ds fy fx Ry Rx Hp) as (o' & E' & Ro').
  assert (o' = o) as -> by (eapply ReprN_unique; eauto; intros i HI; cbv beta; rewrite !A; lia).
  exists o; split; auto; split; auto; refine (ReprN_ext _ _ _ _ Ro _); intros i HI; apply A.
Qed.
Print Assumptions C71_difference.

Example C71_example :
  multiplies_scalar Nat.mul 0 3 (mkImage [2; 1] [1; 2]) = Ok (mkImage [2; 1] [3; 6]) /\
  divides_scalar Nat.div 3 (mkImage [2; 1] [9; 7]) = Ok (mkImage [2; 1] [3; 2]) /\
  apply_threshold seq0 0 0 255 Nat.ltb 4 (mkImage [3; 1] [4; 5; 200]) = Ok (mkImage [3; 1] [0; 255; 255]) /\
  difference (mkImage [2; 1] [3; 9]%Z) (mkImage [2; 1] [5; 2]%Z) = Ok (mkImage [2; 1] [2; 7]%Z).
Proof. repeat split. Qed.

(** C72: conversion to double and back restores every 8-bit image *)
Theorem C72_rgb_double_round_trip :
  forall s im ds f, sched1_ok s -> ReprN im ds f -> 0 < prodn ds ->
  (forall i, in_range ds i -> length (f i) = 3 /\ Forall is_u8 (f i)) ->
  (let* x := im2double s im in im2uint8 s x) = Ok im.
Proof.
  intros s im ds f Hs R Hp H; unfold im2double, im2uint8.
  destruct (convert3_ReprN s [0; 0; 0]%Q (fun z => Ok (double_of_u8 z)) double_of_u8 im ds f Hs R Hp) as (x & Ex & Rx).
  { intros i HI; destruct (H i HI) as [L F]; split; auto; apply Forall_forall; auto. }
  rewrite Ex; cbn [bind].
  destruct (convert3_ReprN s [0; 0; 0]%Z u8_of_double (fun q => Qfloor q) x ds _ Hs Rx Hp) as (y & Ey & Ry).
  { intros i HI; destruct (H i HI) as [L F]; rewrite map_length; split; auto.
    apply Forall_forall; intros q Hq; apply in_map_iff in Hq; destruct Hq as (z & <- & Hz).
    rewrite Forall_forall in F; rewrite (u8_of_double_of_u8 z (F z Hz)); unfold double_of_u8; rewrite Qfloor_Z; reflexivity. }
  rewrite Ey; f_equal; eapply ReprN_unique; eauto; intros i HI; cbv beta; rewrite map_map.
  rewrite <- (map_id (f i)) at 2; apply map_ext; intros z; apply Qfloor_Z.
Qed.
Print Assumptions C72_rgb_double_round_trip.

Theorem C72_gray_double_round_trip :
  forall im, wf im -> pix im <> [] -> Forall is_u8 (pix im) ->
  (let* x := im2double_gray im in im2uint8_gray x) = Ok im.
Proof.
  intros [ds p] W Hn F; unfold wf, im2double_gray, im2uint8_gray, cast in *; cbn [dims pix] in *.
  assert (E : forall (B : Type) (q : list B), length q = length p -> image_data q ds = Ok (mkImage ds q)).
  { intros B q L; unfold image_data; destruct q as [|b q]; [destruct p; [congruence | discriminate L]|].
    rewrite L, W, Nat.eqb_refl; reflexivity. }
  rewrite E by apply map_length; cbn [bind pix dims].
  rewrite (mapM_ok u8_of_double Qfloor).
  - cbn [bind]; rewrite map_map, (map_ext _ (fun z => z)), map_id by (intros z; apply Qfloor_Z); apply E; reflexivity.
  - intros q Hq; apply in_map_iff in Hq; destruct Hq as (z & <- & Hz); rewrite Forall_forall in F.
    rewrite (u8_of_double_of_u8 z (F z Hz)); unfold double_of_u8; rewrite Qfloor_Z; reflexivity.
Qed.
Print Assumptions C72_gray_double_round_trip.

Example C72_example :
  (let* x := im2double seq0 (mkImage [1; 1] [[0; 128; 255]%Z]) in im2uint8 seq0 x) = Ok (mkImage [1; 1] [[0; 128; 255]%Z]).
Proof. reflexivity. Qed.
