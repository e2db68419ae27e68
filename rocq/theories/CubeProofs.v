(** CubeProofs.v - lemmas for cube.h and cube_operations.h. *)
From Coq Require Import ZifyBool ZifyNat.
From Verif Require Import Base ImageModel ImageFacts ImageProofs NestedModel CubeModel.
Open Scope nat_scope.

(** the volume of width w, height h and depth d whose voxel (x, y, z) is [f x y z]; its storage is planes of rows *)
Definition VRepr {A} (v : vol A) (w h d : nat) (f : nat -> nat -> nat -> A) : Prop :=
  vwidth v = Z.of_nat w /\ vheight v = Z.of_nat h /\ vdepth v = Z.of_nat d /\
  length (vdata v) = w * h * d /\
  forall x y z, x < w -> y < h -> z < d -> nth_error (vdata v) (z * w * h + y * w + x) = Some (f x y z).

Lemma flat_lt w h d x y z : x < w -> y < h -> z < d -> z * w * h + y * w + x < w * h * d.
Proof. intros X Y Z; assert (y * w + x < w * h) by nia; nia. Qed.

Lemma flat_split w h k : 0 < w -> 0 < h -> k = (k / (w * h)) * w * h + ((k / w) mod h) * w + k mod w.
Proof.
  intros W H; pose proof (Nat.div_mod k w ltac:(lia)); pose proof (Nat.div_mod (k / w) h ltac:(lia)).
  rewrite Nat.div_div in H1 by lia; nia.
Qed.

Lemma flat_cover w h d k : k < w * h * d ->
  k mod w < w /\ (k / w) mod h < h /\ k / (w * h) < d /\ k = (k / (w * h)) * w * h + ((k / w) mod h) * w + k mod w.
Proof.
  intros K; assert (0 < w) by nia; assert (0 < h) by nia; repeat split; [apply Nat.mod_upper_bound; lia | apply Nat.mod_upper_bound; lia | | apply flat_split; lia].
  apply Nat.div_lt_upper_bound; nia.
Qed.

Lemma flat_inj w h x y z x' y' z' : x < w -> y < h -> x' < w -> y' < h ->
  z * w * h + y * w + x = z' * w * h + y' * w + x' -> x = x' /\ y = y' /\ z = z'.
Proof.
  intros X Y X' Y' E.
  assert (E' : w * (z * h + y) + x = w * (z' * h + y') + x') by nia.
  apply Nat.div_mod_unique in E' as (E1 & ->); try lia.
  assert (E2 : h * z + y = h * z' + y') by nia; apply Nat.div_mod_unique in E2 as (-> & ->); lia.
Qed.

Lemma VRepr_unique {A} (v u : vol A) w h d f : VRepr v w h d f -> VRepr u w h d f -> v = u.
Proof.
  intros (W & H & D & L & F) (W' & H' & D' & L' & F'); destruct v as [vw vh vd data], u as [uw uh ud data']; cbn in *.
  subst; f_equal; apply nth_error_ext; intros k; destruct (Nat.lt_ge_cases k (w * h * d)) as [K|K].
  - destruct (flat_cover w h d k K) as (X & Y & Z & E); rewrite E, F, F'; auto.
  - rewrite !(proj2 (nth_error_None _ _)); auto; lia.
Qed.

Lemma vcount_mod a b c : vcount a b c = w64 (a * b * c).
Proof. unfold vcount, w64; rewrite Z.mul_mod_idemp_l by (unfold two64; lia); reflexivity. Qed.
Lemma vcount_fits' w h d : fits (w * h * d) -> vcount (Z.of_nat w) (Z.of_nat h) (Z.of_nat d) = Z.of_nat (w * h * d).
Proof. intros F; rewrite vcount_mod; unfold w64, fits in *; rewrite Z.mod_small; nia. Qed.

Lemma voffset_fits w h d x y z : fits (w * h * d) -> x < w -> y < h -> z < d ->
  voffset (Z.of_nat w) (Z.of_nat h) (Z.of_nat x) (Z.of_nat y) (Z.of_nat z) = Z.of_nat (z * w * h + y * w + x).
Proof.
  intros F X Y Z; pose proof (flat_lt w h d x y z X Y Z); unfold voffset, w64, fits in *.
  assert (z * w <= z * w * h) by nia.
  rewrite (Z.mod_small (_ * Z.of_nat w) two64) by nia.
  rewrite (Z.mod_small (Z.of_nat y * _) two64) by nia.
  rewrite (Z.mod_small (_ * Z.of_nat h) two64) by nia.
  rewrite Z.mod_small; nia.
Qed.

Lemma zget_nth {A} (l : list A) k a : nth_error l k = Some a -> zget l (Z.of_nat k) = Ok a.
Proof.
  intros E; assert (k < length l) by (apply nth_error_Some; congruence); unfold zget.
  destruct (Z.ltb_spec (Z.of_nat k) (Z.of_nat (length l))); [|lia]; rewrite Nat2Z.id; unfold vget; rewrite E; auto.
Qed.
Lemma zset_lt {A} (l : list A) k a : k < length l -> zset l (Z.of_nat k) a = Ok (list_upd k a l).
Proof.
  intros L; unfold zset; destruct (Z.ltb_spec (Z.of_nat k) (Z.of_nat (length l))); [|lia].
  rewrite Nat2Z.id; unfold vset; destruct (Nat.ltb_spec k (length l)); auto; lia.
Qed.

Lemma vcheck_in {A} (v : vol A) w h d f x y z : VRepr v w h d f -> x < w -> y < h -> z < d ->
  vcheck_boundary v (Z.of_nat x) (Z.of_nat y) (Z.of_nat z) = Ok tt.
Proof.
  intros (W & H & D & _) X Y Z; unfold vcheck_boundary; rewrite W, H, D.
  destruct (Z.leb_spec (Z.of_nat w) (Z.of_nat x)); [lia|]; destruct (Z.leb_spec (Z.of_nat h) (Z.of_nat y)); [lia|].
  destruct (Z.leb_spec (Z.of_nat d) (Z.of_nat z)); [lia|]; auto.
Qed.
Lemma vcheck_out {A} (v : vol A) w h d f (x y z : Z) : VRepr v w h d f ->
  (Z.of_nat w <= x \/ Z.of_nat h <= y \/ Z.of_nat d <= z)%Z -> vcheck_boundary v x y z = Throw OutOfRange.
Proof.
  intros (W & H & D & _) O; unfold vcheck_boundary; rewrite W, H, D.
  destruct (Z.leb_spec (Z.of_nat w) x); auto; destruct (Z.leb_spec (Z.of_nat h) y); auto.
  destruct (Z.leb_spec (Z.of_nat d) z); auto; lia.
Qed.

Lemma vat_in {A} (v : vol A) w h d f x y z : VRepr v w h d f -> fits (w * h * d) -> x < w -> y < h -> z < d ->
  vat v (Z.of_nat x) (Z.of_nat y) (Z.of_nat z) = Ok (f x y z).
Proof.
  intros R F X Y Z; unfold vat; rewrite (vcheck_in v w h d f) by auto; cbn [bind].
  destruct R as (W & H & D & L & R); rewrite W, H, (voffset_fits w h d) by auto; apply zget_nth, R; auto.
Qed.
Lemma vat_out {A} (v : vol A) w h d f (x y z : Z) : VRepr v w h d f ->
  (Z.of_nat w <= x \/ Z.of_nat h <= y \/ Z.of_nat d <= z)%Z -> vat v x y z = Throw OutOfRange.
Proof. intros R O; unfold vat; rewrite (vcheck_out v w h d f) by auto; auto. Qed.

Lemma vat_set_in {A} (v : vol A) w h d f x y z a : VRepr v w h d f -> fits (w * h * d) -> x < w -> y < h -> z < d ->
  exists v', vat_set v (Z.of_nat x) (Z.of_nat y) (Z.of_nat z) a = Ok v' /\
    VRepr v' w h d (fun x' y' z' => if (x' =? x) && (y' =? y) && (z' =? z) then a else f x' y' z').
Proof.
  intros R F X Y Z; unfold vat_set; rewrite (vcheck_in v w h d f) by auto; cbn [bind].
  destruct R as (W & H & D & L & R); rewrite W, H, (voffset_fits w h d) by auto.
  rewrite zset_lt by (rewrite L; apply flat_lt; auto); cbn [bind]; eexists; split; [reflexivity|].
  do 3 (split; [cbn; auto|]); split; [cbn; rewrite list_upd_length; auto|]; cbn; intros x' y' z' X' Y' Z'.
  destruct ((x' =? x) && (y' =? y) && (z' =? z)) eqn:E.
  - replace (z' * w * h + y' * w + x') with (z * w * h + y * w + x) by nia; apply list_upd_same; rewrite L; apply flat_lt; auto.
  - rewrite list_upd_other; [apply R; auto|]; intros Q; apply (flat_inj w h) in Q; auto; lia.
Qed.

(** the volume of a list of voxels: planes of rows *)
Lemma vol_data_ok {A} (input : list A) w h d (f : nat -> nat -> nat -> A) : fits (w * h * d) -> length input = w * h * d ->
  (forall x y z, x < w -> y < h -> z < d -> nth_error input (z * w * h + y * w + x) = Some (f x y z)) ->
  exists v, vol_data input (Z.of_nat w) (Z.of_nat h) (Z.of_nat d) = Ok v /\ VRepr v w h d f /\ vdata v = input.
Proof.
  intros F L R; unfold vol_data; rewrite vcount_fits', L, Z.eqb_refl by auto; cbn [negb].
  eexists; split; [reflexivity|]; repeat split; auto.
Qed.

Lemma VRepr_const {A} (a : A) w h d : VRepr (mkVol (Z.of_nat w) (Z.of_nat h) (Z.of_nat d) (repeat a (w * h * d))) w h d (fun _ _ _ => a).
Proof.
  do 3 (split; [reflexivity|]); split; [apply repeat_length|]; cbn; intros x y z X Y Z.
  rewrite nth_error_repeat; auto; apply flat_lt; auto.
Qed.

(** ** the images constructor *)
Lemma for_range_throw {S} (n : nat) (Inv : nat -> S -> Prop) (body : nat -> S -> res S) s e i :
  Inv 0 s -> i < n ->
  (forall j s, j < i -> Inv j s -> body j s = Throw e \/ exists s', body j s = Ok s' /\ Inv (Datatypes.S j) s') ->
  (forall s, Inv i s -> body i s = Throw e) ->
  for_range n body s = Throw e.
Proof.
  intros H0 Hi Hstep Hbad; unfold for_range.
  assert (G : forall k j s, j + k = n -> j <= i -> Inv j s -> for_list (seq j k) body s = Throw e).
  { induction k as [|k IH]; intros j s1 E J I; cbn; [lia|].
    destruct (Nat.eq_dec j i) as [->|]; [rewrite (Hbad s1 I); auto|].
    destruct (Hstep j s1 ltac:(lia) I) as [Q|(s2 & Q & I2)]; rewrite Q; auto; cbn [bind]; apply IH; auto; lia. }
  apply (G n 0); auto; lia.
Qed.

Lemma at_Repr_out {A} (plane : image A) wz hz f x y : Repr plane wz hz f -> wz <= x \/ hz <= y -> at_ plane [x; y] = Throw OutOfRange.
Proof.
  intros R O; destruct (at_total plane [x; y] (Repr_wf _ _ _ _ R)) as (_ & _ & T); destruct R as (D & _).
  apply T; rewrite D; auto; intros I; inversion I as [|? ? ? ? X I']; subst; inversion I'; subst; lia.
Qed.

Section Images.
  Context {A : Type} (zero : A) (w h d : nat) (g : nat -> nat -> nat -> A).
  Hypothesis F : fits (w * h * d).
  (** the cells before k hold their voxel *)
  Definition filled (k : nat) (data : list A) : Prop :=
    length data = w * h * d /\
    forall x y z, x < w -> y < h -> z < d -> z * w * h + y * w + x < k -> nth_error data (z * w * h + y * w + x) = Some (g x y z).

  Lemma filled_step x y z data : x < w -> y < h -> z < d -> filled (z * w * h + y * w + x) data ->
    exists data', zset data (voffset (Z.of_nat w) (Z.of_nat h) (Z.of_nat x) (Z.of_nat y) (Z.of_nat z)) (g x y z) = Ok data' /\
      filled (z * w * h + y * w + S x) data'.
  Proof using F.
    intros X Y Z (L & R); rewrite (voffset_fits w h d), zset_lt by (auto; rewrite L; apply flat_lt; auto).
    eexists; split; [reflexivity|]; split; [rewrite list_upd_length; auto|]; intros x' y' z' X' Y' Z' Q.
    destruct (Nat.eq_dec (z' * w * h + y' * w + x') (z * w * h + y * w + x)) as [E|N].
    - rewrite E; apply (flat_inj w h) in E as (-> & -> & ->); auto; apply list_upd_same; rewrite L; apply flat_lt; auto.
    - rewrite list_upd_other by auto; apply R; auto; lia.
  Qed.

  Lemma filled_all data : filled (w * h * d) data -> VRepr (mkVol (Z.of_nat w) (Z.of_nat h) (Z.of_nat d) data) w h d g.
  Proof using.
    intros (L & R); do 3 (split; [reflexivity|]); split; auto; cbn; intros x y z X Y Z; apply R; auto; apply flat_lt; auto.
  Qed.

  (** one plane: large enough, or not *)
  Lemma plane_ok (plane : image A) wz hz z data : z < d -> Repr plane wz hz (fun x y => g x y z) -> w <= wz -> h <= hz ->
    filled (z * w * h) data ->
    exists data', for_range h (fun y data => for_range w (fun x data =>
        let* v := at_ plane [x; y] in
        zset data (voffset (Z.of_nat w) (Z.of_nat h) (Z.of_nat x) (Z.of_nat y) (Z.of_nat z)) v) data) data = Ok data' /\
      filled (S z * w * h) data'.
  Proof using F.
    intros Zd R W H I0.
    destruct (for_range_inv h (fun y => filled (z * w * h + y * w))
      (fun y data => for_range w (fun x data =>
        let* v := at_ plane [x; y] in
        zset data (voffset (Z.of_nat w) (Z.of_nat h) (Z.of_nat x) (Z.of_nat y) (Z.of_nat z)) v) data) data) as (data' & E & I).
    - rewrite Nat.mul_0_l, Nat.add_0_r; auto.
    - intros y s Y I.
      destruct (for_range_inv w (fun x => filled (z * w * h + y * w + x))
        (fun x data => let* v := at_ plane [x; y] in
           zset data (voffset (Z.of_nat w) (Z.of_nat h) (Z.of_nat x) (Z.of_nat y) (Z.of_nat z)) v) s) as (s' & E & I').
      + rewrite Nat.add_0_r; auto.
      + intros x s0 X I'; rewrite (at_Repr plane wz hz (fun x y => g x y z)) by (auto; lia); cbn [bind]; apply filled_step; auto.
      + exists s'; split; auto; replace (z * w * h + S y * w) with (z * w * h + y * w + w) by lia; auto.
    - exists data'; split; auto; replace (S z * w * h) with (z * w * h + h * w) by lia; auto.
  Qed.

  Lemma plane_small (plane : image A) wz hz z data : z < d -> Repr plane wz hz (fun x y => g x y z) -> 0 < w -> 0 < h -> wz < w \/ hz < h ->
    filled (z * w * h) data ->
    for_range h (fun y data => for_range w (fun x data =>
        let* v := at_ plane [x; y] in
        zset data (voffset (Z.of_nat w) (Z.of_nat h) (Z.of_nat x) (Z.of_nat y) (Z.of_nat z)) v) data) data = Throw OutOfRange.
  Proof using F.
    intros Zd R W H O I0.
    assert (Row : forall y s, y < h -> filled (z * w * h + y * w) s -> wz < w \/ hz <= y ->
      for_range w (fun x data => let* v := at_ plane [x; y] in
         zset data (voffset (Z.of_nat w) (Z.of_nat h) (Z.of_nat x) (Z.of_nat y) (Z.of_nat z)) v) s = Throw OutOfRange).
    { intros y s Y I Q.
      apply (for_range_throw w (fun x => filled (z * w * h + y * w + x)) _ _ _ (if hz <=? y then 0 else wz)).
      - rewrite Nat.add_0_r; auto.
      - destruct (Nat.leb_spec hz y); lia.
      - intros x s0 X I'; destruct (Nat.leb_spec hz y); [lia|].
        rewrite (at_Repr plane wz hz (fun x y => g x y z)) by (auto; lia); cbn [bind]; right; apply filled_step; auto; lia.
      - intros s0 I'; rewrite (at_Repr_out plane wz hz (fun x y => g x y z)); auto; destruct (Nat.leb_spec hz y); lia. }
    apply (for_range_throw h (fun y => filled (z * w * h + y * w)) _ _ _ (if wz <? w then 0 else hz)).
    - rewrite Nat.mul_0_l, Nat.add_0_r; auto.
    - destruct (Nat.ltb_spec wz w); lia.
    - intros y s Y I; destruct (Nat.ltb_spec wz w); [lia|]; right.
      destruct (for_range_inv w (fun x => filled (z * w * h + y * w + x))
        (fun x data => let* v := at_ plane [x; y] in
           zset data (voffset (Z.of_nat w) (Z.of_nat h) (Z.of_nat x) (Z.of_nat y) (Z.of_nat z)) v) s) as (s' & E & I').
      + rewrite Nat.add_0_r; auto.
      + intros x s0 X I'; rewrite (at_Repr plane wz hz (fun x y => g x y z)) by (auto; lia); cbn [bind]; apply filled_step; auto; lia.
      + exists s'; split; auto; replace (z * w * h + S y * w) with (z * w * h + y * w + w) by lia; auto.
    - intros s I; apply Row; auto; destruct (Nat.ltb_spec wz w); lia.
  Qed.
End Images.

(** plane z of the list is the image of [ext z] whose pixels are [g _ _ z] *)
Definition planes {A} (input : list (image A)) (ext : nat -> nat * nat) (g : nat -> nat -> nat -> A) : Prop :=
  forall z im, nth_error input z = Some im -> Repr im (fst (ext z)) (snd (ext z)) (fun x y => g x y z).

Lemma vol_images_ok {A} (max_size : Z) (zero : A) input ext (g : nat -> nat -> nat -> A) :
  let w := fst (ext 0) in let h := snd (ext 0) in let d := length input in
  0 < d -> planes input ext g -> fits (w * h * d) -> (Z.of_nat (w * h * d) <= max_size)%Z ->
  (forall z, z < d -> w <= fst (ext z) /\ h <= snd (ext z)) ->
  exists v, vol_images max_size zero input = Ok v /\ VRepr v w h d g.
Proof.
  intros w h d D P F M C; unfold vol_images.
  destruct (nth_error input 0) as [first|] eqn:E0; [|apply nth_error_None in E0; unfold d in D; lia].
  unfold vget at 1; rewrite E0; cbn [bind]; pose proof (P 0 first E0) as R0; rewrite (get_width_Repr _ _ _ _ R0), (get_height_Repr _ _ _ _ R0); cbn [bind].
  fold w h d.
  rewrite vcount_fits' by auto; unfold new_vector; destruct (Z.ltb_spec max_size (Z.of_nat (w * h * d))); [lia|]; cbn [bind].
  rewrite Nat2Z.id.
  destruct (for_range_inv d (fun z => filled w h d g (z * w * h))
    (fun z data => for_range h (fun y data => for_range w (fun x data =>
      let* plane := vget input z in let* v := at_ plane [x; y] in
      zset data (voffset (Z.of_nat w) (Z.of_nat h) (Z.of_nat x) (Z.of_nat y) (Z.of_nat z)) v) data) data)
    (repeat zero (w * h * d))) as (data & E & I).
  - split; [apply repeat_length|]; intros; cbn in *; lia.
  - intros z s Zd I.
    destruct (nth_error input z) as [plane|] eqn:En; [|apply nth_error_None in En; unfold d in *; lia].
    destruct (plane_ok w h d g F plane (fst (ext z)) (snd (ext z)) z s) as (s' & E & I'); auto; try apply (C z Zd).
    exists s'; split; auto; unfold vget; rewrite En; cbn [bind]; exact E.
  - rewrite E; cbn [bind]; eexists; split; [reflexivity|]; apply filled_all; replace (w * h * d) with (d * w * h) by nia; auto.
Qed.

Lemma vol_images_small {A} (max_size : Z) (zero : A) input ext (g : nat -> nat -> nat -> A) z :
  let w := fst (ext 0) in let h := snd (ext 0) in let d := length input in
  z < d -> planes input ext g -> fits (w * h * d) -> (Z.of_nat (w * h * d) <= max_size)%Z ->
  0 < w -> 0 < h -> fst (ext z) < w \/ snd (ext z) < h ->
  vol_images max_size zero input = Throw OutOfRange.
Proof.
  intros w h d D P F M W H C; unfold vol_images.
  destruct (nth_error input 0) as [first|] eqn:E0; [|apply nth_error_None in E0; unfold d in D; lia].
  unfold vget at 1; rewrite E0; cbn [bind]; pose proof (P 0 first E0) as R0; rewrite (get_width_Repr _ _ _ _ R0), (get_height_Repr _ _ _ _ R0); cbn [bind].
  fold w h d.
  rewrite vcount_fits' by auto; unfold new_vector; destruct (Z.ltb_spec max_size (Z.of_nat (w * h * d))); [lia|]; cbn [bind].
  rewrite Nat2Z.id.
  rewrite (for_range_throw d (fun z => filled w h d g (z * w * h)) _ _ OutOfRange z); auto.
  - split; [apply repeat_length|]; intros; cbn in *; lia.
  - intros j s J I.
    destruct (nth_error input j) as [plane|] eqn:En; [|apply nth_error_None in En; unfold d in *; lia].
    unfold vget; rewrite En; cbn [bind]; pose proof (P j plane En) as Rj.
    destruct (Nat.lt_ge_cases (fst (ext j)) w) as [Q|Q]; [left; eapply plane_small; eauto; lia|].
    destruct (Nat.lt_ge_cases (snd (ext j)) h) as [Q'|Q']; [left; eapply plane_small; eauto; lia|].
    right; eapply plane_ok; eauto; lia.
  - intros s I.
    destruct (nth_error input z) as [plane|] eqn:En; [|apply nth_error_None in En; unfold d in *; lia].
    unfold vget; rewrite En; cbn [bind]; eapply plane_small; eauto.
Qed.

(** ** print *)
Definition printed {A} (w h d : nat) (f : nat -> nat -> nat -> A) : list (token A) :=
  flat_map (fun z => flat_map (fun y => flat_map (fun x => [Value (f x y z); Separator]) (seq 0 w) ++ [Newline]) (seq 0 h) ++ [Newline]) (seq 0 d) ++ [Newline].
(** the values of a text, in order *)
Definition values {A} (t : list (token A)) : list A := flat_map (fun k => match k with Value a => [a] | _ => [] end) t.

Lemma for_range_emit {T} (n : nat) (body : nat -> list T -> res (list T)) (e : nat -> list T) os :
  (forall i os, i < n -> body i os = Ok (os ++ e i)) -> for_range n body os = Ok (os ++ flat_map e (seq 0 n)).
Proof.
  intros H; unfold for_range; assert (G : forall k i os, i + k <= n -> for_list (seq i k) body os = Ok (os ++ flat_map e (seq i k))).
  { induction k as [|k IH]; intros i o K; cbn; [rewrite app_nil_r; auto|].
    rewrite H by lia; cbn [bind]; rewrite IH by lia; rewrite <- app_assoc; auto. }
  apply G; lia.
Qed.

Lemma vprint_ok {A} (v : vol A) w h d f : VRepr v w h d f -> fits (w * h * d) -> vprint v = Ok (printed w h d f).
Proof.
  intros R F; unfold vprint.
  assert (EW : Z.to_nat (vwidth v) = w) by (destruct R as (E & _); rewrite E, Nat2Z.id; auto).
  assert (EH : Z.to_nat (vheight v) = h) by (destruct R as (_ & E & _); rewrite E, Nat2Z.id; auto).
  assert (ED : Z.to_nat (vdepth v) = d) by (destruct R as (_ & _ & E & _); rewrite E, Nat2Z.id; auto).
  rewrite EW, EH, ED.
  rewrite (for_range_emit d _ (fun z => flat_map (fun y => flat_map (fun x => [Value (f x y z); Separator]) (seq 0 w) ++ [Newline]) (seq 0 h) ++ [Newline])); auto.
  intros z os Z.
  rewrite (for_range_emit h _ (fun y => flat_map (fun x => [Value (f x y z); Separator]) (seq 0 w) ++ [Newline])).
  - cbn [bind]; rewrite <- app_assoc; auto.
  - intros y os' Y; rewrite (for_range_emit w _ (fun x => [Value (f x y z); Separator])).
    + cbn [bind]; rewrite <- app_assoc; auto.
    + intros x os'' X; rewrite (vat_in v w h d f) by auto; auto.
Qed.

Lemma values_app {A} (t u : list (token A)) : values (t ++ u) = values t ++ values u.
Proof. apply flat_map_app. Qed.
Lemma values_flat_map {A I} (e : I -> list (token A)) l : values (flat_map e l) = flat_map (fun i => values (e i)) l.
Proof. induction l as [|i l IH]; auto; cbn [flat_map]; rewrite values_app, IH; auto. Qed.

Lemma flat_map_length_const {I T} (e : I -> list T) n l : (forall i, In i l -> length (e i) = n) -> length (flat_map e l) = length l * n.
Proof.
  induction l as [|a l IH]; intros H; cbn; auto; rewrite app_length, H, IH by (cbn; auto; intros; apply H; cbn; auto); auto.
Qed.
Lemma flat_map_nth {T} (e : nat -> list T) m : forall n i j s, (forall i, length (e i) = m) -> i < n -> j < m ->
  nth_error (flat_map e (seq s n)) (i * m + j) = nth_error (e (s + i)) j.
Proof.
  induction n as [|n IH]; intros i j s L I J; [lia|]; cbn [seq flat_map]; destruct i as [|i].
  - rewrite Nat.add_0_r; cbn; rewrite nth_error_app1 by (rewrite L; auto); auto.
  - rewrite nth_error_app2 by (rewrite L; lia); rewrite L.
    replace (S i * m + j - m) with (i * m + j) by lia; rewrite IH by (auto; lia); f_equal; f_equal; lia.
Qed.

Lemma values_printed {A} w h d (f : nat -> nat -> nat -> A) :
  values (printed w h d f) = flat_map (fun z => flat_map (fun y => map (fun x => f x y z) (seq 0 w)) (seq 0 h)) (seq 0 d).
Proof.
  assert (N : values (A := A) [Newline] = []) by reflexivity.
  unfold printed; rewrite values_app, N, app_nil_r, values_flat_map; apply flat_map_ext; intros z.
  rewrite values_app, N, app_nil_r, values_flat_map; apply flat_map_ext; intros y.
  rewrite values_app, N, app_nil_r, values_flat_map; induction (seq 0 w); cbn; auto; f_equal; auto.
Qed.

Lemma print_values {A} (v : vol A) w h d f : VRepr v w h d f -> values (printed w h d f) = vdata v.
Proof.
  intros (_ & _ & _ & L & R); rewrite values_printed; apply nth_error_ext; intros k.
  set (e := fun z => flat_map (fun y => map (fun x => f x y z) (seq 0 w)) (seq 0 h)).
  assert (Lm : forall y z, length (map (fun x => f x y z) (seq 0 w)) = w) by (intros; rewrite map_length, seq_length; auto).
  assert (Le : forall z, length (e z) = h * w) by (intros z; unfold e; rewrite (flat_map_length_const _ w), seq_length; auto).
  destruct (Nat.lt_ge_cases k (w * h * d)) as [K|K].
  - destruct (flat_cover w h d k K) as (X & Y & Z & E).
    set (x := k mod w) in *; set (y := (k / w) mod h) in *; set (z := k / (w * h)) in *; rewrite E, R by auto.
    replace (z * w * h + y * w + x) with (z * (h * w) + (y * w + x)) by lia.
    assert (Q : y * w + x < h * w) by (clear - X Y; nia).
    rewrite (flat_map_nth e (h * w)) by auto; unfold e; rewrite (flat_map_nth (fun y => map (fun x => f x y (0 + z)) (seq 0 w)) w) by auto.
    cbn [Nat.add]; erewrite map_nth_error by (rewrite nth_error_nth' with (d := 0) by (rewrite seq_length; auto); rewrite seq_nth by auto; reflexivity); auto.
  - rewrite !(proj2 (nth_error_None _ _)); auto; [lia|]; rewrite (flat_map_length_const _ (h * w)), seq_length by auto; nia.
Qed.

(** ** voxelwise operations *)
Lemma voxelwise1_ok {A B} (op : A -> B) v w h d f : VRepr v w h d f -> fits (w * h * d) ->
  exists u, voxelwise1 op v = Ok u /\ VRepr u w h d (fun x y z => op (f x y z)).
Proof.
  intros (W & H & D & L & R) F; unfold voxelwise1; cbn [recursive_transform].
  rewrite (mapM_ok _ op) by auto; cbn [bind]; rewrite W, H, D.
  destruct (vol_data_ok (map op (vdata v)) w h d (fun x y z => op (f x y z)) F) as (u & E & Ru & _); [rewrite map_length; auto | |exists u; auto].
  intros; apply map_nth_error, R; auto.
Qed.

Lemma transform2_pure {A B C} (op : A -> B -> C) : forall l rest, length l <= length rest ->
  NestedModel.transform2 (fun a b => Ok (op a b)) l rest = Ok (map (fun ab => op (fst ab) (snd ab)) (combine l rest)).
Proof.
  induction l as [|a l IH]; intros [|b rest] H; cbn in *; auto; [lia|]; rewrite IH by lia; auto.
Qed.
Lemma transform2_UB {A B C} (op : A -> B -> C) : forall l rest, length rest < length l ->
  NestedModel.transform2 (fun a b => Ok (op a b)) l rest = UB.
Proof. induction l as [|a l IH]; intros [|b rest] H; cbn in *; auto; try lia; rewrite IH by lia; auto. Qed.
Lemma combine_nth_error {A B} : forall (l : list A) (m : list B) k a b, nth_error l k = Some a -> nth_error m k = Some b ->
  nth_error (combine l m) k = Some (a, b).
Proof. induction l as [|x l IH]; intros [|y m] [|k] a b; cbn; intros; try discriminate; [congruence|]; apply IH; auto. Qed.

Lemma voxelwise2_ok {A B C} (op : A -> B -> C) v u w h d f g : VRepr v w h d f -> VRepr u w h d g -> fits (w * h * d) ->
  exists r, voxelwise2 op v u = Ok r /\ VRepr r w h d (fun x y z => op (f x y z) (g x y z)).
Proof.
  intros (W & H & D & L & R) (W' & H' & D' & L' & R') F; unfold voxelwise2; cbn [recursive_transform2].
  rewrite transform2_pure by exact (Nat.eq_le_incl _ _ (eq_trans L (eq_sym L'))); cbn [bind]; rewrite W, H, D.
  destruct (vol_data_ok (map (fun ab => op (fst ab) (snd ab)) (combine (vdata v) (vdata u))) w h d (fun x y z => op (f x y z) (g x y z)) F)
    as (r & E & Rr & _); [rewrite map_length, combine_length, L, L'; lia | | exists r; auto].
  intros; erewrite map_nth_error by (eapply combine_nth_error; [apply R | apply R']; auto); auto.
Qed.

Lemma voxelwise2_short {A B C} (op : A -> B -> C) v u : length (vdata u) < length (vdata v) -> voxelwise2 op v u = UB.
Proof. intros H; unfold voxelwise2; cbn [recursive_transform2]; rewrite transform2_UB; auto. Qed.
