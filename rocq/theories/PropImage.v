(** PropImage.v - property theorems C01-C09 (class Image). *)
From Verif Require Import Base ImageModel ImageFacts IndexModel ImageProofs.

(** C01: coordinates address distinct, existing cells, every cell is addressed, first dimension fastest *)
Theorem C01_coordinates_bijective :
  forall (A : Type) (im : image A), wf im ->
  (forall idx, in_range (dims im) idx ->
     exists k, loc_checked im idx = Ok k /\ k < length (pix im) /\
               k = dot idx (map (fun j => prodn (firstn j (dims im))) (seq 0 (length (dims im))))) /\
  (forall i j k, in_range (dims im) i -> in_range (dims im) j ->
     loc_checked im i = Ok k -> loc_checked im j = Ok k -> i = j) /\
  (forall k, k < length (pix im) -> exists idx, in_range (dims im) idx /\ loc_checked im idx = Ok k).
Proof. exact @at_addresses_bijectively. Qed.
Print Assumptions C01_coordinates_bijective.

(** the strides reported by getStride are the products of the lower extents *)
Theorem C01_get_stride :
  forall (A : Type) (im : image A) k,
  k <= length (dims im) -> get_stride im k = Ok (prodn (firstn k (dims im))).
Proof. exact @get_stride_spec. Qed.
Print Assumptions C01_get_stride.

Example C01_example : wf (image_sizes 0 [3; 2; 4]) /\ in_range [3; 2; 4] [2; 1; 3] /\
  loc_checked (image_sizes 0 [3; 2; 4]) [2; 1; 3] = Ok 23 /\
  loc_checked (image_sizes 0 [3; 2; 4]) [1; 0; 0] = Ok 1.
Proof. split; [apply ctor_wf|]; split; [repeat constructor|]; split; reflexivity. Qed.

(** C02: checked access *)
Theorem C02_at_read_total :
  forall (A : Type) (im : image A) idx, wf im ->
  (in_range (dims im) idx -> exists v, at_ im idx = Ok v /\ lookup im idx = Some v) /\
  (length idx <> length (dims im) -> at_ im idx = Throw RuntimeError) /\
  (length idx = length (dims im) -> ~ in_range (dims im) idx -> at_ im idx = Throw OutOfRange).
Proof. exact @at_total. Qed.
Print Assumptions C02_at_read_total.

Theorem C02_at_write_total :
  forall (A : Type) (im : image A) idx v, wf im ->
  (in_range (dims im) idx ->
     exists im', at_set im idx v = Ok im' /\ dims im' = dims im /\ wf im' /\ lookup im' idx = Some v /\
       forall j, in_range (dims im) j -> j <> idx -> lookup im' j = lookup im j) /\
  (length idx <> length (dims im) -> at_set im idx v = Throw RuntimeError) /\
  (length idx = length (dims im) -> ~ in_range (dims im) idx -> at_set im idx v = Throw OutOfRange).
Proof. exact @at_set_total. Qed.
Print Assumptions C02_at_write_total.

(** the overload taking a range of coordinates is the same when the lengths agree ... *)
Theorem C02_at_range_same_arity :
  forall (A : Type) (im : image A) idx, length idx = length (dims im) -> at_range im idx = at_ im idx.
Proof. exact @at_range_same_arity. Qed.
Print Assumptions C02_at_range_same_arity.

(** ... but it does not check the number of coordinates: too many is undefined behaviour, too few
    silently reads some element *)
Theorem C02_at_range_arity_refuted :
  exists im : image nat, wf im /\
    at_range im [0; 0; 0] = UB /\ at_range im [1] = Ok 8 /\ at_ im [0; 0; 0] = Throw RuntimeError.
Proof. exists (mkImage [2; 2] [7; 8; 9; 10]); repeat split. Qed.
Print Assumptions C02_at_range_arity_refuted.

Example C02_example :
  at_ (mkImage [2; 2] [7; 8; 9; 10]) [1; 1] = Ok 10 /\
  at_ (mkImage [2; 2] [7; 8; 9; 10]) [2; 0] = Throw OutOfRange /\
  at_ (mkImage [2; 2] [7; 8; 9; 10]) [2] = Throw RuntimeError.
Proof. repeat split. Qed.

(** C03: histories of writes *)
Theorem C03_write_history_is_finite_map :
  forall (A : Type) (ops : list (wop A)) (im : image A),
  wf im -> Forall (wop_ok (dims im)) ops ->
  exists im', for_list ops wstep im = Ok im' /\ dims im' = dims im /\ wf im' /\
    forall idx, in_range (dims im) idx ->
      lookup im' idx = last_write (dims im) ops idx (lookup im idx).
Proof. exact @write_history. Qed.
Print Assumptions C03_write_history_is_finite_map.

Example C03_example :
  let ops := [WAt [1; 0] 5; WSet [9; 9] 6; WIdx 3 7; WAt [1; 0] 8] in
  Forall (wop_ok [2; 2]) ops /\
  for_list ops wstep (image_sizes 0 [2; 2]) = Ok (mkImage [2; 2] [0; 8; 0; 7]).
Proof. split; [repeat constructor; simpl; lia | reflexivity]. Qed.

(** C04: every constructor yields as many elements as the extents say, or throws ... *)
Theorem C04_ctor_sizes :
  forall (A : Type) (d : A) sizes,
  wf (image_sizes d sizes) /\
  (forall idx, in_range sizes idx -> lookup (image_sizes d sizes) idx = Some d).
Proof. exact @ctor_wf. Qed.
Print Assumptions C04_ctor_sizes.

Theorem C04_ctor_data :
  forall (A : Type) (input : list A) sizes,
  (input <> [] -> length input = prodn sizes ->
     exists im, image_data input sizes = Ok im /\ dims im = sizes /\ pix im = input /\ wf im) /\
  ((input = [] \/ length input <> prodn sizes) -> image_data input sizes = Throw RuntimeError).
Proof. exact @ctor_data_wf. Qed.
Print Assumptions C04_ctor_data.

(** ... the constructor from rows only when the rows have equal length *)
Theorem C04_ctor_rows_partial :
  forall (A : Type) (rows : list (list A)) w,
  rows <> [] -> Forall (fun r => length r = w) rows ->
  exists im, image_rows rows = Ok im /\ dims im = [w; length rows] /\ wf im /\
    forall x y row v, nth_error rows y = Some row -> nth_error row x = Some v -> lookup im [x; y] = Some v.
Proof. exact @ctor_rows_wf. Qed.
Print Assumptions C04_ctor_rows_partial.

(** ragged rows: no exception, inconsistent image, and an in-range read is undefined behaviour *)
Theorem C04_ctor_rows_refuted :
  exists (rows : list (list nat)) im, image_rows rows = Ok im /\ ~ wf im /\
    in_range (dims im) [1; 1] /\ at_ im [1; 1] = UB.
Proof.
  exists [[1; 2]; [3]], (mkImage [2; 2] [1; 2; 3]); repeat split; try (unfold wf, prodn; simpl; lia).
  repeat constructor.
Qed.
Print Assumptions C04_ctor_rows_refuted.

(** the default-constructed image reports one pixel but stores none *)
Theorem C04_default_refuted :
  count (@image_default nat) = 1 /\ ~ wf (@image_default nat) /\ set_index (@image_default nat) 0 5 = UB.
Proof. repeat split; unfold wf, prodn; simpl; lia. Qed.
Print Assumptions C04_default_refuted.

Theorem C04_operations_preserve :
  (forall (A : Type) (f : A -> A -> A) (a b c : image A),
     wf a -> op_assign f a b = Ok c -> dims c = dims a /\ wf c) /\
  (forall (A B : Type) (f : A -> B) (im : image A),
     wf im -> pix im <> [] ->
     exists im', cast f im = Ok im' /\ dims im' = dims im /\ wf im' /\
       forall idx, in_range (dims im) idx -> lookup im' idx = option_map f (lookup im idx)) /\
  (forall (A : Type) (im : image A) o, wf im -> wop_ok (dims im) o ->
     exists im', wstep o im = Ok im' /\ dims im' = dims im /\ wf im').
Proof.
  split; [exact @op_assign_wf|]; split; [exact @cast_wf|].
  intros A im o W H; destruct (wstep_spec im o W H) as (im' & E & D & W' & _); eauto.
Qed.
Print Assumptions C04_operations_preserve.

Example C04_example : exists im, image_rows [[1; 2; 3]; [4; 5; 6]] = Ok im /\ at_ im [0; 1] = Ok 4.
Proof. eexists; split; reflexivity. Qed.

(** C05: linear index <-> coordinates *)
Theorem C05_linear_index_to_coordinates :
  forall ds k, k < prodn ds ->
  exists idx, linear_index_to_indices k ds = Ok idx /\ in_range ds idx /\ calculate_index ds idx = Ok k.
Proof. exact linear_index_round_trip. Qed.
Print Assumptions C05_linear_index_to_coordinates.

Theorem C05_coordinates_to_linear_index :
  forall ds idx, in_range ds idx ->
  exists k, calculate_index ds idx = Ok k /\ k < prodn ds /\ linear_index_to_indices k ds = Ok idx.
Proof. exact indices_linear_round_trip. Qed.
Print Assumptions C05_coordinates_to_linear_index.

Theorem C05_stride_overload_agrees :
  forall (A : Type) (im : image A) strides k,
  k < prodn (dims im) ->
  mapM (get_stride im) (seq 0 (length (dims im))) = Ok strides ->
  linear_index_to_indices_strides k strides (dims im) = linear_index_to_indices k (dims im).
Proof. exact @linear_index_strides_agree. Qed.
Print Assumptions C05_stride_overload_agrees.

Theorem C05_read_at_coordinates :
  forall (A : Type) (im : image A) k idx v, wf im ->
  nth_error (pix im) k = Some v -> linear_index_to_indices k (dims im) = Ok idx -> at_ im idx = Ok v.
Proof.
  intros A im k idx v W Hv Hi.
  assert (Hk : k < prodn (dims im)) by (rewrite <- W; apply nth_error_Some; congruence).
  destruct (linear_index_round_trip (dims im) k Hk) as (idx' & E & IR & C).
  rewrite Hi in E; injection E as <-.
  unfold at_; rewrite loc_checked_in by exact IR; simpl.
  rewrite calculate_index_off in C by (rewrite (in_range_length _ _ IR); lia); injection C as ->.
  apply vget_ok, Hv.
Qed.
Print Assumptions C05_read_at_coordinates.

Example C05_example : linear_index_to_indices 23 [3; 2; 4] = Ok [2; 1; 3] /\
  linear_index_to_indices_strides 23 [1; 3; 6] [3; 2; 4] = Ok [2; 1; 3].
Proof. split; reflexivity. Qed.

(** C06: coordinate iteration, raster order; [list_prod (seq 0 h) (seq 0 w)] is (y,x) with y outer.
    Partial: an image of width 0 and positive height is excluded, see the refutation. *)
Theorem C06_pixels_with_coordinates_partial :
  forall (A : Type) (im : image A) w h f fuel,
  Repr im w h f -> (0 < w \/ h = 0) -> w * h < fuel ->
  pixels_with_coordinates fuel im =
  Some (Ok (map (fun p => (f (snd p) (fst p), snd p, fst p)) (list_prod (seq 0 h) (seq 0 w)))).
Proof. exact @pixels_raster. Qed.
Print Assumptions C06_pixels_with_coordinates_partial.

Theorem C06_other_dimensionality_throws :
  forall (A : Type) (im : image A) fuel,
  length (dims im) <> 2 -> pixels_with_coordinates fuel im = Some (Throw LogicError).
Proof.
  intros A im fuel H; unfold pixels_with_coordinates.
  destruct (dims im) as [|a [|b [|c l]]]; simpl in H; try lia; reflexivity.
Qed.
Print Assumptions C06_other_dimensionality_throws.

Theorem C06_zero_width_refuted :
  exists im : image nat, wf im /\ dims im = [0; 1] /\
    forall fuel, pixels_with_coordinates (S fuel) im = Some UB.
Proof. exists (image_sizes 0 [0; 1]); repeat split. Qed.
Print Assumptions C06_zero_width_refuted.

Example C06_example :
  pixels_with_coordinates 7 (mkImage [3; 2] [1; 2; 3; 4; 5; 6]) =
  Some (Ok [(1, 0, 0); (2, 1, 0); (3, 2, 0); (4, 0, 1); (5, 1, 1); (6, 2, 1)]).
Proof. reflexivity. Qed.

(** C07: set *)
Theorem C07_set_index :
  forall (A : Type) (im : image A) k v, wf im ->
  (k < prodn (dims im) ->
     exists im', set_index im k v = Ok im' /\ dims im' = dims im /\ nth_error (pix im') k = Some v /\
       forall j, j <> k -> nth_error (pix im') j = nth_error (pix im) j) /\
  (prodn (dims im) <= k -> set_index im k v = Throw OutOfRange).
Proof. exact @set_index_spec. Qed.
Print Assumptions C07_set_index.

Theorem C07_set_tuple :
  forall (A : Type) (im : image A) loc v, wf im ->
  (in_range (dims im) loc ->
     exists im', set_tuple im loc v = Ok (true, im') /\ dims im' = dims im /\ lookup im' loc = Some v /\
       forall j, in_range (dims im) j -> j <> loc -> lookup im' j = lookup im j) /\
  (length loc = length (dims im) -> ~ in_range (dims im) loc -> set_tuple im loc v = Ok (false, im)) /\
  (length loc <> length (dims im) -> set_tuple im loc v = Throw RuntimeError).
Proof. exact @set_tuple_spec. Qed.
Print Assumptions C07_set_tuple.

Example C07_example :
  set_tuple (image_sizes 0 [2; 2]) [1; 1] 4 = Ok (true, mkImage [2; 2] [0; 0; 0; 4]) /\
  set_tuple (image_sizes 0 [2; 2]) [2; 0] 4 = Ok (false, image_sizes 0 [2; 2]).
Proof. split; reflexivity. Qed.

(** C08: image arithmetic *)
Theorem C08_elementwise_or_throw :
  forall (A : Type) (f : A -> A -> A) (a b : image A), wf a -> wf b ->
  (dims a = dims b ->
     exists c, op_assign f a b = Ok c /\ dims c = dims a /\ wf c /\
       forall idx u v, in_range (dims a) idx -> lookup a idx = Some u -> lookup b idx = Some v ->
                       lookup c idx = Some (f u v)) /\
  (dims a <> dims b -> op_assign f a b = Throw RuntimeError).
Proof. exact @op_assign_spec. Qed.
Print Assumptions C08_elementwise_or_throw.

Theorem C08_subtract_undoes_add :
  forall (a b : image Z), wf a -> wf b -> dims a = dims b ->
  Forall (fun v => (0 <= v < 256)%Z) (pix a) ->
  (let* c := op_assign (fun u v => (u + v) mod 256)%Z a b in op_assign (fun u v => (u - v) mod 256)%Z c b) = Ok a.
Proof.
  intros a b Wa Wb HD HF.
  destruct (op_assign_spec (fun u v => (u + v) mod 256)%Z a b Wa Wb) as [H _].
  destruct (H HD) as (c & E & Dc & Wc & Lc); rewrite E; simpl.
  destruct (op_assign_spec (fun u v => (u - v) mod 256)%Z c b Wc Wb) as [H' _].
  destruct H' as (e & E' & De & We & Le); [congruence|].
  rewrite E'; f_equal.
  destruct a as [da pa], e as [de pe]; simpl in *; subst de; unfold wf in *; simpl in *.
  rewrite Dc in *; f_equal.
  apply nth_error_ext_len; [congruence|]; intros k Hk.
  rewrite We in Hk; destruct (unoff_spec da k Hk) as [IR Ek].
  destruct (nth_error_lt pa k) as (u & Eu); [lia|].
  destruct (nth_error_lt (pix b) k) as (v & Ev); [rewrite Wb, <- HD; lia|].
  rewrite Eu, <- Ek.
  assert (Lb : lookup b (unoff da k) = Some v) by (unfold lookup; rewrite <- HD, Ek; exact Ev).
  assert (La : lookup (mkImage da pa) (unoff da k) = Some u) by (unfold lookup; simpl; rewrite Ek; exact Eu).
  pose proof (Lc _ _ _ IR La Lb) as Hc.
  pose proof (Le _ _ _ IR Hc Lb) as He; unfold lookup in He; simpl in He; rewrite He.
  rewrite Forall_forall in HF; specialize (HF u (nth_error_In _ _ Eu)).
  f_equal; rewrite Zminus_mod_idemp_l; replace (u + v - v)%Z with u by lia; apply Z.mod_small; lia.
Qed.
Print Assumptions C08_subtract_undoes_add.

Example C08_example :
  op_assign Z.add (mkImage [2; 1] [1; 2]%Z) (mkImage [2; 1] [10; 20]%Z) = Ok (mkImage [2; 1] [11; 22]%Z) /\
  op_assign Z.add (mkImage [2; 1] [1; 2]%Z) (mkImage [1; 2] [10; 20]%Z) = Throw RuntimeError.
Proof. split; reflexivity. Qed.

(** C09: extents whose product wraps around.  The full statement (no construction ever admits a
    coordinate without storage) is false; without wrap-around the 64-bit code is the model used
    everywhere else. *)
Theorem C09_no_overflow_partial :
  forall (A : Type) (d : A) ds,
  (Z.of_nat (prodn ds) < two64)%Z ->
  image_sizes64 d (map Z.of_nat ds) = (map Z.of_nat ds, pix (image_sizes d ds)) /\
  forall (im : image A) idx, wf im -> dims im = ds ->
    at64 (map Z.of_nat ds) (pix im) (map Z.of_nat idx) = at_ im idx.
Proof.
  intros A d ds H; split; [apply image_sizes64_agree, H|].
  intros im idx W E; subst ds; apply at64_agree; auto.
Qed.
Print Assumptions C09_no_overflow_partial.

Theorem C09_overflow_refuted :
  exists sizes data, image_sizes64 0%Z sizes = (sizes, data) /\
    Forall (fun s => 0 < s < two64)%Z sizes /\ at64 sizes data [0; 0]%Z = UB.
Proof.
  exists [2 ^ 32; 2 ^ 32]%Z, []; destruct overflow_witness as [E1 E2]; repeat split; auto.
  repeat constructor; unfold two64; lia.
Qed.
Print Assumptions C09_overflow_refuted.

Example C09_example : (Z.of_nat (prodn [20; 30]%nat) < two64)%Z.
Proof. reflexivity. Qed.
