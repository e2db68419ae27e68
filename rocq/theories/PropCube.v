(** PropCube.v - C69 volumes (cube.h), C85 voxelwise operations (cube_operations.h).

    [VRepr v w h d f] (CubeProofs.v): v has width w, height h, depth d, exactly w * h * d voxels, and voxel (x, y, z) is
    [f x y z].  [fits n]: n < 2^64. *)
From Coq Require Import ZifyBool ZifyNat.
From Verif Require Import Base ImageModel ImageFacts NestedModel CubeModel CubeProofs.
Open Scope nat_scope.

(** ** C69: addressing *)
(** a coordinate inside the extents reads its voxel, any other (as large as it may be) throws std::out_of_range *)
Theorem C69_address {A} (v : vol A) w h d f : VRepr v w h d f -> fits (w * h * d) ->
  (forall x y z, x < w -> y < h -> z < d -> vat v (Z.of_nat x) (Z.of_nat y) (Z.of_nat z) = Ok (f x y z)) /\
  (forall x y z : Z, (0 <= x)%Z -> (0 <= y)%Z -> (0 <= z)%Z -> (Z.of_nat w <= x \/ Z.of_nat h <= y \/ Z.of_nat d <= z)%Z ->
     vat v x y z = Throw OutOfRange).
Proof. intros R F; split; [intros; apply (vat_in v w h d f); auto | intros; eapply vat_out; eauto]. Qed.
Print Assumptions C69_address.

(** assigning one coordinate changes that voxel and no other; outside the extents nothing is written *)
Theorem C69_assign {A} (v : vol A) w h d f a : VRepr v w h d f -> fits (w * h * d) ->
  (forall x y z, x < w -> y < h -> z < d -> exists v', vat_set v (Z.of_nat x) (Z.of_nat y) (Z.of_nat z) a = Ok v' /\
     VRepr v' w h d (fun x' y' z' => if (x' =? x) && (y' =? y) && (z' =? z) then a else f x' y' z')) /\
  (forall x y z : Z, (0 <= x)%Z -> (0 <= y)%Z -> (0 <= z)%Z -> (Z.of_nat w <= x \/ Z.of_nat h <= y \/ Z.of_nat d <= z)%Z ->
     vat_set v x y z a = Throw OutOfRange).
Proof.
  intros R F; split; [intros; apply vat_set_in; auto|].
  intros; unfold vat_set; rewrite (vcheck_out v w h d f); auto.
Qed.
Print Assumptions C69_assign.

(** every stored element is a voxel: the storage is determined by the voxels *)
Theorem C69_storage {A} (v : vol A) w h d f : VRepr v w h d f ->
  (forall k, k < length (vdata v) -> exists x y z, x < w /\ y < h /\ z < d /\ nth_error (vdata v) k = Some (f x y z)) /\
  (forall u, VRepr u w h d f -> u = v).
Proof.
  intros R; split; [|intros u Ru; eapply VRepr_unique; eauto].
  destruct R as (_ & _ & _ & L & R); rewrite L; intros k K; destruct (flat_cover w h d k K) as (X & Y & Z & E).
  exists (k mod w), ((k / w) mod h), (k / (w * h)); repeat split; auto; rewrite E at 1; apply R; auto.
Qed.
Print Assumptions C69_storage.

Example C69_address_case :
  let v := mkVol 2 1 2 [10; 20; 30; 40] in
  VRepr v 2 1 2 (fun x y z => 10 * (1 + x + 2 * z)) /\ fits (2 * 1 * 2) /\
  vat v 1 0 1 = Ok 40 /\ vat v 0 0 1 = Ok 30 /\ vat v 2 0 0 = Throw OutOfRange /\ vat v 0 1 0 = Throw OutOfRange /\
  vat v 0 0 18446744073709551615 = Throw OutOfRange /\
  vat_set v 1 0 0 7 = Ok (mkVol 2 1 2 [10; 7; 30; 40]).
Proof.
  cbn zeta; split.
  { do 3 (split; [reflexivity|]); split; [reflexivity|]; intros x y z X Y Z.
    destruct x as [|[|]]; try lia; destruct y; try lia; destruct z as [|[|]]; try lia; reflexivity. }
  split; [reflexivity|]; repeat split; reflexivity.
Qed.

(** ** C69: constructors *)
(** extents and a value *)
Theorem C69_fill {A} (max_size : Z) (a : A) w h d : (Z.of_nat w < 2 ^ 31)%Z -> (Z.of_nat h < 2 ^ 31)%Z -> (Z.of_nat d < 2 ^ 31)%Z ->
  fits (w * h * d) ->
  ((Z.of_nat (w * h * d) <= max_size)%Z ->
     exists v, vol_fill max_size (Z.of_nat w) (Z.of_nat h) (Z.of_nat d) a = Ok v /\ VRepr v w h d (fun _ _ _ => a)) /\
  ((max_size < Z.of_nat (w * h * d))%Z -> vol_fill max_size (Z.of_nat w) (Z.of_nat h) (Z.of_nat d) a = Throw LogicError).
Proof.
  intros W H D F; unfold vol_fill, w64; rewrite !(Z.mod_small (Z.of_nat _) two64) by (unfold two64; lia).
  rewrite vcount_fits' by auto; unfold new_vector; split; intros M; destruct (Z.ltb_spec max_size (Z.of_nat (w * h * d))); try lia; auto.
  cbn [bind]; rewrite Nat2Z.id; eexists; split; [reflexivity | apply VRepr_const].
Qed.
Print Assumptions C69_fill.
(** without the bound on the product the extents and the storage disagree and a coordinate inside the extents is undefined:
    for non-negative extents whose product is 2^64, and for negative ones *)
Theorem C69_fill_refuted : exists w h d : Z, (0 < w < 2 ^ 31)%Z /\ (0 < h < 2 ^ 31)%Z /\ (0 < d < 2 ^ 31)%Z /\
  forall max_size (a : nat), (0 <= max_size)%Z -> exists v, vol_fill max_size w h d a = Ok v /\
    vwidth v = w /\ vheight v = h /\ vdepth v = d /\ vat v 0 0 0 = UB.
Proof.
  exists 4194304%Z, 2097152%Z, 2097152%Z; do 3 (split; [lia|]); intros max_size a M; unfold vol_fill, new_vector.
  change (vcount (w64 4194304) (w64 2097152) (w64 2097152)) with 0%Z; destruct (Z.ltb_spec max_size 0); [lia|].
  eexists; split; [reflexivity|]; repeat split; reflexivity.
Qed.
Print Assumptions C69_fill_refuted.
Theorem C69_fill_negative_refuted : forall max_size (a : nat), (1 <= max_size)%Z ->
  exists v, vol_fill max_size (-1) (-1) 1 a = Ok v /\ vdata v = [a] /\ vat v 1 0 0 = UB /\ vat v 0 1 0 = UB.
Proof.
  intros max_size a M; unfold vol_fill, new_vector; change (vcount (w64 (-1)) (w64 (-1)) (w64 1)) with 1%Z.
  destruct (Z.ltb_spec max_size 1); [lia|]; eexists; split; [reflexivity|]; repeat split; reflexivity.
Qed.
Print Assumptions C69_fill_negative_refuted.

(** a vector of voxels and the extents *)
Theorem C69_data {A} (input : list A) w h d : fits (w * h * d) ->
  (length input = w * h * d -> exists v, vol_data input (Z.of_nat w) (Z.of_nat h) (Z.of_nat d) = Ok v /\ vdata v = input /\
     forall a0, VRepr v w h d (fun x y z => nth (z * w * h + y * w + x) input a0)) /\
  (length input <> w * h * d -> vol_data input (Z.of_nat w) (Z.of_nat h) (Z.of_nat d) = Throw RuntimeError).
Proof.
  intros F; split; intros L.
  - unfold vol_data; rewrite vcount_fits', L, Z.eqb_refl by auto; cbn [negb]; eexists; split; [reflexivity|]; split; auto; intros a0.
    do 3 (split; [reflexivity|]); split; auto; cbn; intros; apply nth_error_nth'; rewrite L; apply flat_lt; auto.
  - unfold vol_data; rewrite vcount_fits' by auto; destruct (Z.eqb_spec (Z.of_nat (length input)) (Z.of_nat (w * h * d))); auto; lia.
Qed.
Print Assumptions C69_data.
Theorem C69_data_refuted : exists w h d : Z, (0 < w < two64)%Z /\ (0 < h < two64)%Z /\ (0 < d < two64)%Z /\
  exists v : vol nat, vol_data [] w h d = Ok v /\ vat v 0 0 0 = UB.
Proof.
  exists 4294967296%Z, 4294967296%Z, 1%Z; do 3 (split; [unfold two64; lia|]); eexists; split; reflexivity.
Qed.
Print Assumptions C69_data_refuted.

(** a vector of two-dimensional images: [planes input ext g] says image z has the extents [ext z] and pixels [g _ _ z].
    The volume has the extents of the first image; larger planes are cut, smaller ones throw std::out_of_range *)
Theorem C69_images {A} (max_size : Z) (zero : A) input ext (g : nat -> nat -> nat -> A) :
  let w := fst (ext 0) in let h := snd (ext 0) in let d := length input in
  0 < d -> planes input ext g -> fits (w * h * d) -> (Z.of_nat (w * h * d) <= max_size)%Z ->
  ((forall z, z < d -> w <= fst (ext z) /\ h <= snd (ext z)) ->
     exists v, vol_images max_size zero input = Ok v /\ VRepr v w h d g) /\
  (0 < w -> 0 < h -> (exists z, z < d /\ (fst (ext z) < w \/ snd (ext z) < h)) ->
     vol_images max_size zero input = Throw OutOfRange).
Proof.
  intros w h d D P F M; split; [intros; eapply vol_images_ok; eauto|].
  intros W H (z & Z & C); eapply vol_images_small; eauto.
Qed.
Print Assumptions C69_images.
Example C69_images_case :
  let a := mkImage [2; 1] [1; 2] in let b := mkImage [3; 2] [3; 4; 5; 6; 7; 8] in let c := mkImage [1; 1] [9] in
  let ext z := match z with 0 => (2, 1) | _ => (3, 2) end in
  planes [a; b] ext (fun x y z => match z with 0 => 1 + x | _ => 3 + x + 3 * y end) /\
  vol_images 1000 0 [a; b] = Ok (mkVol 2 1 2 [1; 2; 3; 4]) /\
  vol_images 1000 0 [a; c] = Throw OutOfRange /\ vol_images 1000 0 [b; a] = Throw OutOfRange.
Proof.
  cbn zeta; split; [|repeat split; reflexivity]; intros z im E.
  destruct z as [|[|z]]; cbn in E; [| |destruct z; discriminate]; injection E as <-; (split; [reflexivity|]; split; [reflexivity|]);
    cbn; intros x y X Y; destruct x as [|[|[|]]]; try lia; destruct y as [|[|]]; try lia; reflexivity.
Qed.
(** no image at all is undefined, not an empty volume; so is the constructor from three extents alone, whatever they are *)
Theorem C69_images_empty_refuted : forall max_size (zero : nat), vol_images max_size zero [] = UB.
Proof. reflexivity. Qed.
Print Assumptions C69_images_empty_refuted.
Theorem C69_sizes_refuted : exists w h d : Z, (0 < w)%Z /\ (0 < h)%Z /\ (0 < d)%Z /\
  forall max_size (zero : nat), vol_sizes max_size zero w h d = UB.
Proof. exists 2%Z, 2%Z, 2%Z; do 3 (split; [lia|]); reflexivity. Qed.
Print Assumptions C69_sizes_refuted.

(** ** C69: print *)
(** row by row and plane by plane, each voxel once followed by the separator, each row, each plane and the text ended by a
    line end; the values are the voxels in the order of storage *)
Theorem C69_print {A} (v : vol A) w h d f : VRepr v w h d f -> fits (w * h * d) ->
  exists t, vprint v = Ok t /\ values t = vdata v /\
    t = flat_map (fun z => flat_map (fun y => flat_map (fun x => [Value (f x y z); Separator]) (seq 0 w) ++ [Newline]) (seq 0 h) ++ [Newline]) (seq 0 d)
        ++ [Newline].
Proof.
  intros R F; exists (printed w h d f); split; [apply vprint_ok; auto|]; split; [apply print_values; auto | reflexivity].
Qed.
Print Assumptions C69_print.
Example C69_print_case : vprint (mkVol 2 1 2 [1; 2; 3; 4]) =
  Ok [Value 1; Separator; Value 2; Separator; Newline; Newline; Value 3; Separator; Value 4; Separator; Newline; Newline; Newline].
Proof. reflexivity. Qed.

(** ** C85: voxelwise operations *)
(** one volume: negate *)
Theorem C85_one {A B} (op : A -> B) v w h d f : VRepr v w h d f -> fits (w * h * d) ->
  exists u, voxelwise1 op v = Ok u /\ VRepr u w h d (fun x y z => op (f x y z)).
Proof. apply voxelwise1_ok. Qed.
Print Assumptions C85_one.
(** two volumes of the same extents: multiplies, divides, modulus *)
Theorem C85_two {A B C} (op : A -> B -> C) v u w h d f g : VRepr v w h d f -> VRepr u w h d g -> fits (w * h * d) ->
  exists r, voxelwise2 op v u = Ok r /\ VRepr r w h d (fun x y z => op (f x y z) (g x y z)).
Proof. apply voxelwise2_ok. Qed.
Print Assumptions C85_two.

(** the sum of one or more volumes: a + (b + (c + ...)) at each voxel *)
Fixpoint sum_right {A} (add : A -> A -> A) (a : A) (l : list A) : A :=
  match l with [] => a | b :: l' => add a (sum_right add b l') end.
Theorem C85_sum {A} (add : A -> A -> A) v vs w h d f fs : VRepr v w h d f -> Forall2 (fun u g => VRepr u w h d g) vs fs ->
  fits (w * h * d) ->
  exists r, vplus add v vs = Ok r /\ VRepr r w h d (fun x y z => sum_right add (f x y z) (map (fun g => g x y z) fs)).
Proof.
  intros R Rs F; revert v f R; induction Rs as [|u g us gs Ru Rs IH]; intros v f R; cbn [vplus map sum_right]; [exists v; auto|].
  destruct (IH u g Ru) as (r & E & Rr); rewrite E; cbn [bind]; apply voxelwise2_ok; auto.
Qed.
Print Assumptions C85_sum.
(** by a number: the number is multiplied from the right into every voxel *)
Theorem C85_number {A} (max_size : Z) (mul : A -> A -> A) times v w h d f : VRepr v w h d f ->
  (Z.of_nat w < 2 ^ 31)%Z -> (Z.of_nat h < 2 ^ 31)%Z -> (Z.of_nat d < 2 ^ 31)%Z -> fits (w * h * d) -> (Z.of_nat (w * h * d) <= max_size)%Z ->
  exists r, vmultiplies_number max_size mul v times = Ok r /\ VRepr r w h d (fun x y z => mul (f x y z) times).
Proof.
  intros R W H D F M; unfold vmultiplies_number; pose proof R as (EW & EH & ED & _); rewrite EW, EH, ED.
  assert (I : forall n, (Z.of_nat n < 2 ^ 31)%Z -> to_int32 (Z.of_nat n) = Z.of_nat n)
    by (intros n Hn; unfold to_int32; rewrite Z.mod_small; lia).
  rewrite !I by auto; destruct (C69_fill max_size times w h d W H D F) as (Q & _); destruct (Q M) as (u & -> & Ru); cbn [bind].
  unfold vmultiplies; apply (voxelwise2_ok mul v u w h d f (fun _ _ _ => times)); auto.
Qed.
Print Assumptions C85_number.
Example C85_case :
  let v := mkVol 2 1 2 [1; 2; 3; 4] in let u := mkVol 2 1 2 [5; 6; 7; 8] in
  voxelwise1 S v = Ok (mkVol 2 1 2 [2; 3; 4; 5]) /\ voxelwise2 Nat.mul v u = Ok (mkVol 2 1 2 [5; 12; 21; 32]) /\
  vplus Nat.add v [u; v] = Ok (mkVol 2 1 2 [7; 10; 13; 16]) /\ vmultiplies_number 1000 Nat.mul v 3 = Ok (mkVol 2 1 2 [3; 6; 9; 12]).
Proof. repeat split; reflexivity. Qed.

(** volumes of different extents are not rejected: with as many voxels they are combined in the order of storage, with fewer
    in the second operand the behaviour is undefined, with fewer in the first the rest is ignored *)
Theorem C85_shape_refuted : exists v u : vol nat, VRepr v 2 1 1 (fun x _ _ => x) /\ VRepr u 1 2 1 (fun _ y _ => y) /\
  exists r, voxelwise2 Nat.add v u = Ok r /\ vwidth r = 2%Z /\ vheight r = 1%Z.
Proof.
  exists (mkVol 2 1 1 [0; 1]), (mkVol 1 2 1 [0; 1]); split; [|split].
  - do 4 (split; [reflexivity|]); intros x y z X Y Z; destruct x as [|[|]]; try lia; destruct y; try lia; destruct z; try lia; reflexivity.
  - do 4 (split; [reflexivity|]); intros x y z X Y Z; destruct x; try lia; destruct y as [|[|]]; try lia; destruct z; try lia; reflexivity.
  - eexists; split; [reflexivity|]; split; reflexivity.
Qed.
Print Assumptions C85_shape_refuted.
Theorem C85_shape_UB {A B C} (op : A -> B -> C) v u w h d f w' h' d' g :
  VRepr v w h d f -> VRepr u w' h' d' g -> w' * h' * d' < w * h * d -> voxelwise2 op v u = UB.
Proof. intros (_ & _ & _ & L & _) (_ & _ & _ & L' & _) H; apply voxelwise2_short; rewrite L, L'; auto. Qed.
Print Assumptions C85_shape_UB.
