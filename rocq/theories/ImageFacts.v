(** ImageFacts.v - specification-level view of an image and the lemmas that tie the model of
    image.h to it.

    The specification does not use the model's stride loop: the cell of a coordinate tuple is given
    by the mixed-radix (Horner) formula [off], coordinates are in range when they are componentwise
    below the extents. *)
From Verif Require Import Base ImageModel.

Definition in_range (ds idx : list nat) : Prop := Forall2 lt idx ds.

Fixpoint off (ds idx : list nat) : nat :=
  match ds, idx with
  | d :: ds', i :: idx' => i + d * off ds' idx'
  | _, _ => 0
  end.

(** the image has as many stored elements as its extents say *)
Definition wf {A} (im : image A) : Prop := length (pix im) = prodn (dims im).

(** [im] is the image with extents [ds] whose pixel at [idx] is [f idx] *)
Definition ReprN {A} (im : image A) (ds : list nat) (f : list nat -> A) : Prop :=
  dims im = ds /\ length (pix im) = prodn ds /\
  forall idx, in_range ds idx -> nth_error (pix im) (off ds idx) = Some (f idx).

(** the two-dimensional case: pixel (x, y) lives in cell y * w + x *)
Definition Repr {A} (im : image A) (w h : nat) (f : nat -> nat -> A) : Prop :=
  dims im = [w; h] /\ length (pix im) = w * h /\
  forall x y, x < w -> y < h -> nth_error (pix im) (y * w + x) = Some (f x y).

(** specification-level pixel lookup, any dimensionality *)
Definition lookup {A} (im : image A) (idx : list nat) : option A :=
  nth_error (pix im) (off (dims im) idx).

Lemma in_range_length ds idx : in_range ds idx -> length idx = length ds.
Proof. intros H; induction H; simpl; auto. Qed.

Lemma in_range_dec ds idx : {in_range ds idx} + {~ in_range ds idx}.
Proof.
  revert ds; induction idx as [|i idx IH]; intros [|d ds].
  - left; constructor.
  - right; intros H; inversion H.
  - right; intros H; inversion H.
  - destruct (lt_dec i d) as [Hi|Hi].
    + destruct (IH ds) as [H|H]; [left; constructor; auto | right; intros H'; inversion H'; auto].
    + right; intros H'; inversion H'; auto.
Qed.

Lemma calc_index_loop_off ds idx k st :
  length idx <= length ds -> calc_index_loop ds idx k st = Ok (k + st * off ds idx).
Proof.
  revert ds k st; induction idx as [|i idx IH]; intros ds k st H.
  - destruct ds; simpl; f_equal; lia.
  - destruct ds as [|d ds]; simpl in *; [lia|].
    rewrite IH by lia; f_equal; lia.
Qed.

Lemma calculate_index_off ds idx :
  length idx <= length ds -> calculate_index ds idx = Ok (off ds idx).
Proof. intros H; unfold calculate_index; rewrite calc_index_loop_off by exact H; f_equal; lia. Qed.

Lemma calc_index_loop_long ds idx k st :
  length ds < length idx -> calc_index_loop ds idx k st = UB.
Proof.
  revert ds k st; induction idx as [|i idx IH]; intros [|d ds] k st H; simpl in *; try lia; auto.
  apply IH; lia.
Qed.

Lemma off_lt ds idx : in_range ds idx -> off ds idx < prodn ds.
Proof.
  intros H; induction H as [|i d idx ds Hi H IH]; simpl.
  - unfold prodn; simpl; lia.
  - unfold prodn in *; simpl; nia.
Qed.

Lemma off_inj ds i1 i2 : in_range ds i1 -> in_range ds i2 -> off ds i1 = off ds i2 -> i1 = i2.
Proof.
  intros H1; revert i2; induction H1 as [|a d i1 ds Ha H1 IH]; intros i2 H2 E.
  - inversion H2; auto.
  - inversion H2 as [|b ? i2' ? Hb H2']; subst; simpl in E.
    assert (Eq : off ds i1 = off ds i2').
    { destruct (Nat.lt_trichotomy (off ds i1) (off ds i2')) as [L|[L|L]]; auto; nia. }
    f_equal; [lia | apply IH; auto].
Qed.

(** the coordinates of a cell *)
Fixpoint unoff (ds : list nat) (k : nat) : list nat :=
  match ds with
  | [] => []
  | d :: ds' => k mod d :: unoff ds' (k / d)
  end.

Lemma unoff_spec ds k : k < prodn ds -> in_range ds (unoff ds k) /\ off ds (unoff ds k) = k.
Proof.
  revert k; induction ds as [|d ds IH]; intros k H; unfold prodn in H; simpl in H.
  - split; [constructor | simpl; lia].
  - change (k < d * prodn ds) in H.
    assert (Hd : d <> 0) by (intros ->; simpl in H; lia).
    destruct (IH (k / d)) as [IR E]; [apply Nat.div_lt_upper_bound; auto|].
    split; [constructor; auto; apply Nat.mod_upper_bound; auto|].
    simpl; rewrite E; pose proof (Nat.div_mod k d Hd); lia.
Qed.

Lemma off_unoff ds idx : in_range ds idx -> unoff ds (off ds idx) = idx.
Proof.
  intros H; pose proof (off_lt _ _ H) as HL.
  destruct (unoff_spec ds (off ds idx) HL) as [IR E]; eapply off_inj; eauto.
Qed.

Lemma check_bounds_in ds idx : in_range ds idx -> check_bounds_loop ds idx = Ok tt.
Proof.
  intros H; induction H as [|i d idx ds Hi H IH]; simpl; auto.
  destruct (Nat.leb_spec d i); [lia | auto].
Qed.

Lemma check_bounds_out ds idx :
  length idx = length ds -> ~ in_range ds idx -> check_bounds_loop ds idx = Throw OutOfRange.
Proof.
  revert ds; induction idx as [|i idx IH]; intros [|d ds] HL H; simpl in *; try lia.
  - exfalso; apply H; constructor.
  - destruct (Nat.leb_spec d i); auto.
    apply IH; [lia | intros H'; apply H; constructor; auto].
Qed.

Lemma check_tuple_in ds idx : in_range ds idx -> check_tuple_loop ds idx = Ok true.
Proof.
  intros H; induction H as [|i d idx ds Hi H IH]; simpl; auto.
  destruct (Nat.leb_spec d i); [lia | auto].
Qed.

Lemma check_tuple_out ds idx :
  length idx = length ds -> ~ in_range ds idx -> check_tuple_loop ds idx = Ok false.
Proof.
  revert ds; induction idx as [|i idx IH]; intros [|d ds] HL H; simpl in *; try lia.
  - exfalso; apply H; constructor.
  - destruct (Nat.leb_spec d i); auto.
    apply IH; [lia | intros H'; apply H; constructor; auto].
Qed.

Section Facts.
  Context {A : Type}.
  Implicit Types im : image A.

  Lemma loc_checked_in im idx : in_range (dims im) idx -> loc_checked im idx = Ok (off (dims im) idx).
  Proof.
    intros H; pose proof (in_range_length _ _ H) as HL.
    unfold loc_checked, check_boundary, loc_unchecked; rewrite HL, Nat.eqb_refl; simpl.
    rewrite check_bounds_in by exact H; simpl; apply calculate_index_off; lia.
  Qed.

  Lemma loc_checked_arity im idx :
    length idx <> length (dims im) -> loc_checked im idx = Throw RuntimeError.
  Proof.
    intros H; unfold loc_checked, check_boundary.
    destruct (Nat.eqb_spec (length idx) (length (dims im))); [lia | reflexivity].
  Qed.

  Lemma loc_checked_out im idx :
    length idx = length (dims im) -> ~ in_range (dims im) idx -> loc_checked im idx = Throw OutOfRange.
  Proof.
    intros HL H; unfold loc_checked, check_boundary; rewrite HL, Nat.eqb_refl; simpl.
    rewrite check_bounds_out by auto; reflexivity.
  Qed.

  Lemma loc_unchecked_ok im idx :
    length idx = length (dims im) -> loc_unchecked im idx = Ok (off (dims im) idx).
  Proof.
    intros HL; unfold loc_unchecked; rewrite HL, Nat.eqb_refl; simpl; apply calculate_index_off; lia.
  Qed.

  Lemma wf_lookup im idx : wf im -> in_range (dims im) idx -> exists v, lookup im idx = Some v.
  Proof. intros W H; apply nth_error_lt; rewrite W; apply off_lt, H. Qed.

  (** ** two-dimensional images *)
  Lemma in_range2 w h x y : in_range [w; h] [x; y] <-> x < w /\ y < h.
  Proof.
    unfold in_range; split.
    - intros H; inversion H as [|? ? ? ? Hx H']; subst; inversion H'; subst; auto.
    - intros [Hx Hy]; constructor; auto; constructor; auto.
  Qed.

  Lemma off2 w h x y : off [w; h] [x; y] = y * w + x.
  Proof. simpl; lia. Qed.

  Lemma prodn2 w h : prodn [w; h] = w * h.
  Proof. unfold prodn; simpl; lia. Qed.

  Lemma Repr_ReprN im w h f :
    Repr im w h f <-> ReprN im [w; h] (fun idx => f (nth 0 idx 0) (nth 1 idx 0)).
  Proof.
    unfold Repr, ReprN; rewrite prodn2; split; intros (D & L & H); repeat split; auto.
    - intros idx HI; destruct idx as [|x [|y [|z r]]];
        try (apply in_range_length in HI; simpl in HI; lia).
      apply in_range2 in HI; rewrite off2; apply H; tauto.
    - intros x y Hx Hy; rewrite <- (off2 w h); apply (H [x; y]); apply in_range2; auto.
  Qed.

  Lemma Repr_wf im w h f : Repr im w h f -> wf im.
  Proof. intros (D & L & _); unfold wf; rewrite D, prodn2; exact L. Qed.

  Lemma Repr_ext im w h f g :
    Repr im w h f -> (forall x y, x < w -> y < h -> f x y = g x y) -> Repr im w h g.
  Proof. intros (D & L & H) E; repeat split; auto; intros; rewrite <- E; auto. Qed.

  Lemma ReprN_ext im ds f g :
    ReprN im ds f -> (forall idx, in_range ds idx -> f idx = g idx) -> ReprN im ds g.
  Proof. intros (D & L & H) E; repeat split; auto; intros; rewrite <- E; auto. Qed.

  Lemma cell2 w h k : k < w * h -> exists x y, x < w /\ y < h /\ k = y * w + x.
  Proof.
    intros H; assert (Hw : w <> 0) by (intros ->; simpl in H; lia).
    exists (k mod w), (k / w); repeat split.
    - apply Nat.mod_upper_bound; auto.
    - apply Nat.div_lt_upper_bound; auto.
    - pose proof (Nat.div_mod k w Hw); lia.
  Qed.

  Lemma cell2_inj w x y x' y' :
    x < w -> x' < w -> y * w + x = y' * w + x' -> x = x' /\ y = y'.
  Proof.
    intros Hx Hx' E; assert (Ey : y = y') by (destruct (Nat.lt_trichotomy y y') as [L|[L|L]]; auto; nia).
    subst; split; auto; lia.
  Qed.

  (** images are determined by their pixels *)
  Lemma Repr_unique im im' w h f g :
    Repr im w h f -> Repr im' w h g -> (forall x y, x < w -> y < h -> f x y = g x y) -> im = im'.
  Proof.
    intros (D & L & H) (D' & L' & H') E.
    destruct im as [ds p], im' as [ds' p']; simpl in *; subst ds ds'; f_equal.
    apply nth_error_ext_len; [lia|]; intros k Hk; rewrite L in Hk.
    destruct (cell2 w h k Hk) as (x & y & Hx & Hy & ->).
    rewrite H, H', E by assumption; reflexivity.
  Qed.

  Lemma ReprN_unique im im' ds f g :
    ReprN im ds f -> ReprN im' ds g -> (forall idx, in_range ds idx -> f idx = g idx) -> im = im'.
  Proof.
    intros (D & L & H) (D' & L' & H') E.
    destruct im as [e p], im' as [e' p']; simpl in *; subst e e'; f_equal.
    apply nth_error_ext_len; [lia|]; intros k Hk; rewrite L in Hk.
    destruct (unoff_spec ds k Hk) as [IR Ek]; rewrite <- Ek, H, H', E by assumption; reflexivity.
  Qed.

  (** every well-formed 2-D image has a pixel function (given a spare element) *)
  Lemma Repr_exists (d : A) im w h :
    dims im = [w; h] -> length (pix im) = w * h -> Repr im w h (fun x y => nth (y * w + x) (pix im) d).
  Proof.
    intros D L; repeat split; auto; intros x y Hx Hy.
    apply nth_error_nth'; rewrite L; nia.
  Qed.

  Lemma ReprN_exists (d : A) im :
    wf im -> ReprN im (dims im) (fun idx => nth (off (dims im) idx) (pix im) d).
  Proof.
    intros W; repeat split; auto; intros idx HI.
    apply nth_error_nth'; rewrite W; apply off_lt, HI.
  Qed.

  Lemma at_ReprN im ds f idx : ReprN im ds f -> in_range ds idx -> at_ im idx = Ok (f idx).
  Proof.
    intros (D & L & H) HI; unfold at_; rewrite loc_checked_in by (rewrite D; exact HI); simpl.
    rewrite D; apply vget_ok, H, HI.
  Qed.

  Lemma atu_ReprN im ds f idx : ReprN im ds f -> in_range ds idx -> atu im idx = Ok (f idx).
  Proof.
    intros (D & L & H) HI; unfold atu.
    rewrite loc_unchecked_ok by (rewrite D; apply in_range_length, HI); simpl.
    rewrite D; apply vget_ok, H, HI.
  Qed.

  Lemma at_Repr im w h f x y : Repr im w h f -> x < w -> y < h -> at_ im [x; y] = Ok (f x y).
  Proof.
    intros H Hx Hy; apply Repr_ReprN in H.
    rewrite (at_ReprN _ _ _ [x; y] H) by (apply in_range2; auto); reflexivity.
  Qed.

  Lemma atu_Repr im w h f x y : Repr im w h f -> x < w -> y < h -> atu im [x; y] = Ok (f x y).
  Proof.
    intros H Hx Hy; apply Repr_ReprN in H.
    rewrite (atu_ReprN _ _ _ [x; y] H) by (apply in_range2; auto); reflexivity.
  Qed.

  Lemma get_width_Repr im w h f : Repr im w h f -> get_width im = Ok w.
  Proof. intros (D & _); unfold get_width; rewrite D; reflexivity. Qed.
  Lemma get_height_Repr im w h f : Repr im w h f -> get_height im = Ok h.
  Proof. intros (D & _); unfold get_height, get_dimensionality; rewrite D; reflexivity. Qed.
  Lemma get_dim_Repr im w h f : Repr im w h f -> get_dimensionality im = 2.
  Proof. intros (D & _); unfold get_dimensionality; rewrite D; reflexivity. Qed.

  (** replacing one cell *)
  Definition im_upd im (k : nat) (v : A) : image A := mkImage (dims im) (list_upd k v (pix im)).

  Lemma at_set_ok im ds idx v :
    dims im = ds -> length (pix im) = prodn ds -> in_range ds idx ->
    at_set im idx v = Ok (im_upd im (off ds idx) v).
  Proof.
    intros D L HI; unfold at_set; rewrite loc_checked_in by (rewrite D; exact HI); simpl.
    rewrite D, vset_ok by (rewrite L; apply off_lt, HI); simpl; unfold im_upd; rewrite D; reflexivity.
  Qed.

  Lemma atu_set_ok im ds idx v :
    dims im = ds -> length (pix im) = prodn ds -> in_range ds idx ->
    atu_set im idx v = Ok (im_upd im (off ds idx) v).
  Proof.
    intros D L HI; unfold atu_set; rewrite loc_unchecked_ok by (rewrite D; apply in_range_length, HI); simpl.
    rewrite D, vset_ok by (rewrite L; apply off_lt, HI); simpl; unfold im_upd; rewrite D; reflexivity.
  Qed.

  Lemma at_set_Repr im w h f x y v :
    Repr im w h f -> x < w -> y < h ->
    exists im', at_set im [x; y] v = Ok im' /\
      Repr im' w h (fun x' y' => if (x' =? x) && (y' =? y) then v else f x' y').
  Proof.
    intros (D & L & H) Hx Hy; exists (im_upd im (off [w; h] [x; y]) v); split.
    - apply at_set_ok; auto; [rewrite prodn2; auto | apply in_range2; auto].
    - rewrite off2; unfold im_upd; repeat split; simpl; auto; [rewrite list_upd_length; auto|].
      intros x' y' Hx' Hy'; destruct (Nat.eqb_spec x' x) as [->|Nx]; simpl.
      + destruct (Nat.eqb_spec y' y) as [->|Ny].
        * apply list_upd_same; rewrite L; nia.
        * rewrite list_upd_other; [apply H; auto|]. intros E; apply cell2_inj in E; lia.
      + rewrite list_upd_other; [apply H; auto|]. intros E; apply cell2_inj in E; lia.
  Qed.

  (** ** the scatter rule
      A loop that, for each task [i] of [l], writes value [v i] into cell [p i], where the tasks'
      target cells are distinct: the result is the initial image with these cells replaced, whatever
      the order of the tasks. *)
  Lemma scatter {I} (l : list I) (body : I -> image A -> res (image A)) (p : I -> nat) (v : I -> A) im :
    (forall i s, In i l -> dims s = dims im -> length (pix s) = length (pix im) ->
                 body i s = Ok (im_upd s (p i) (v i))) ->
    for_list l body im = Ok (mkImage (dims im) (writes (map (fun i => (p i, v i)) l) (pix im))).
  Proof.
    intros H.
    assert (G : for_list l body im = Ok (fold_left (fun s i => im_upd s (p i) (v i)) l im) /\
                (dims (fold_left (fun s i => im_upd s (p i) (v i)) l im) = dims im /\
                 length (pix (fold_left (fun s i => im_upd s (p i) (v i)) l im)) = length (pix im))).
    { apply (for_list_fold (fun s => dims s = dims im /\ length (pix s) = length (pix im))
               (fun i s => im_upd s (p i) (v i))); auto.
      intros i s Hi [D L]; split; [apply H; auto|].
      unfold im_upd; simpl; rewrite list_upd_length; auto. }
    destruct G as [-> _]; f_equal.
    clear H; revert im; induction l as [|i l IH]; intros im; simpl.
    - destruct im; reflexivity.
    - rewrite IH; unfold im_upd; simpl; reflexivity.
  Qed.

  (** Two-dimensional instance: every pixel of the output is written once, from inputs that the loop
      does not modify. *)
  Lemma scatter_full {I} (l : list I) (body : I -> image A -> res (image A))
        (qx qy : I -> nat) (v : I -> A) im w h g :
    dims im = [w; h] -> length (pix im) = w * h ->
    (forall i s, In i l -> dims s = [w; h] -> length (pix s) = w * h ->
                 body i s = Ok (im_upd s (qy i * w + qx i) (v i))) ->
    (forall i, In i l -> qx i < w) ->
    NoDup l ->
    (forall i j, In i l -> In j l -> qx i = qx j -> qy i = qy j -> i = j) ->
    (forall x y, x < w -> y < h -> exists i, In i l /\ qx i = x /\ qy i = y /\ v i = g x y) ->
    exists im', for_list l body im = Ok im' /\ Repr im' w h g.
  Proof.
    intros D L Hb Hq ND Hinj Hsurj.
    exists (mkImage (dims im) (writes (map (fun i => (qy i * w + qx i, v i)) l) (pix im))); split.
    - apply scatter; intros i s Hi Ds Ls; apply Hb; auto; congruence.
    - repeat split; simpl; auto; [rewrite writes_length; auto|].
      intros x y Hx Hy; destruct (Hsurj x y Hx Hy) as (i & Hi & <- & <- & Hv).
      apply writes_in.
      + rewrite map_map; simpl; apply NoDup_map_inj; auto.
        intros a b Ha Hb' E; apply cell2_inj in E; auto; apply Hinj; tauto.
      + rewrite <- Hv; apply (in_map (fun i => (qy i * w + qx i, v i))); auto.
      + rewrite L; nia.
  Qed.

  (** N-dimensional instance *)
  Lemma scatter_fullN {I} (l : list I) (body : I -> image A -> res (image A))
        (p : I -> nat) (v : I -> A) im ds g :
    dims im = ds -> length (pix im) = prodn ds ->
    (forall i s, In i l -> dims s = ds -> length (pix s) = prodn ds ->
                 body i s = Ok (im_upd s (p i) (v i))) ->
    NoDup l ->
    (forall i j, In i l -> In j l -> p i = p j -> i = j) ->
    (forall idx, in_range ds idx -> exists i, In i l /\ p i = off ds idx /\ v i = g idx) ->
    exists im', for_list l body im = Ok im' /\ ReprN im' ds g.
  Proof.
    intros D L Hb ND Hinj Hsurj.
    exists (mkImage (dims im) (writes (map (fun i => (p i, v i)) l) (pix im))); split.
    - apply scatter; intros i s Hi Ds Ls; apply Hb; auto; congruence.
    - repeat split; simpl; auto; [rewrite writes_length; auto|].
      intros idx HI; destruct (Hsurj idx HI) as (i & Hi & Ep & Hv).
      apply writes_in.
      + rewrite map_map; simpl; apply NoDup_map_inj; auto.
      + rewrite <- Hv, <- Ep; apply (in_map (fun i => (p i, v i))); auto.
      + rewrite L; apply off_lt, HI.
  Qed.
End Facts.

Lemma in_seq0 n k : In k (seq 0 n) <-> k < n.
Proof. rewrite in_seq; lia. Qed.

Lemma Repr_sizes {A} (d : A) w h : Repr (image_sizes d [w; h]) w h (fun _ _ => d).
Proof.
  unfold image_sizes; split; [reflexivity|]; cbn [pix dims]; rewrite prodn2, repeat_length.
  split; auto; intros x y Hx Hy; apply nth_error_repeat_some; nia.
Qed.

Lemma ReprN_sizes {A} (d : A) ds : ReprN (image_sizes d ds) ds (fun _ => d).
Proof.
  unfold image_sizes; split; [reflexivity|]; cbn [pix dims]; rewrite repeat_length.
  split; auto; intros idx HI; apply nth_error_repeat_some, off_lt, HI.
Qed.

(** ** overlays: a loop that writes [g] at its targets; pixels that are not targets already hold [g] *)
Section Overlay.
  Context {A : Type}.
  Implicit Types im : image A.

  Lemma at_set2_ok im w h x y v :
    dims im = [w; h] -> length (pix im) = w * h -> x < w -> y < h ->
    at_set im [x; y] v = Ok (im_upd im (y * w + x) v).
  Proof.
    intros D L Hx Hy; rewrite <- (off2 w h); apply at_set_ok; auto.
    - rewrite prodn2; auto.
    - apply in_range2; auto.
  Qed.

  Lemma atu_set2_ok im w h x y v :
    dims im = [w; h] -> length (pix im) = w * h -> x < w -> y < h ->
    atu_set im [x; y] v = Ok (im_upd im (y * w + x) v).
  Proof.
    intros D L Hx Hy; rewrite <- (off2 w h); apply atu_set_ok; auto.
    - rewrite prodn2; auto.
    - apply in_range2; auto.
  Qed.

  Lemma im_upd_Repr im w h f x y v :
    Repr im w h f -> x < w -> y < h ->
    Repr (im_upd im (y * w + x) v) w h (fun x' y' => if (x' =? x) && (y' =? y) then v else f x' y').
  Proof.
    intros R Hx Hy; destruct (at_set_Repr im w h f x y v R Hx Hy) as (im' & E & R').
    destruct R as (D & L & _); rewrite (at_set2_ok im w h) in E by auto; injection E as <-; exact R'.
  Qed.

  Lemma overlay {I} (l : list I) (body : I -> image A -> res (image A)) (qx qy : I -> nat) im w h f g :
    Repr im w h f ->
    (forall i s, In i l -> dims s = [w; h] -> length (pix s) = w * h ->
                 body i s = Ok (im_upd s (qy i * w + qx i) (g (qx i) (qy i)))) ->
    (forall i, In i l -> qx i < w /\ qy i < h) ->
    (forall x y, x < w -> y < h -> (forall i, In i l -> qx i = x -> qy i = y -> False) -> f x y = g x y) ->
    exists im', for_list l body im = Ok im' /\ Repr im' w h g.
  Proof.
    revert im f; induction l as [|i l IH]; intros im f R Hb Hq Hg.
    - exists im; split; auto; eapply Repr_ext; eauto.
    - destruct (Hq i) as [Hx Hy]; [simpl; auto|].
      cbn [for_list]; rewrite Hb; [|simpl; auto | apply R | apply R]; cbn [bind].
      apply (IH _ _ (im_upd_Repr _ _ _ _ _ _ (g (qx i) (qy i)) R Hx Hy)).
      + intros j s Hj; apply Hb; simpl; auto.
      + intros j Hj; apply Hq; simpl; auto.
      + intros x y Hx' Hy' HN; cbv beta.
        destruct (Nat.eqb_spec x (qx i)) as [->|Nx]; simpl.
        * destruct (Nat.eqb_spec y (qy i)) as [->|Ny]; auto.
          apply Hg; auto; intros j [<-|Hj] E1 E2; [congruence | eapply HN; eauto].
        * apply Hg; auto; intros j [<-|Hj] E1 E2; [congruence | eapply HN; eauto].
  Qed.

  (** all pixels are targets *)
  Lemma overlay_all {I} (l : list I) (body : I -> image A -> res (image A)) (qx qy : I -> nat) im w h g :
    dims im = [w; h] -> length (pix im) = w * h ->
    (forall i s, In i l -> dims s = [w; h] -> length (pix s) = w * h ->
                 body i s = Ok (im_upd s (qy i * w + qx i) (g (qx i) (qy i)))) ->
    (forall i, In i l -> qx i < w /\ qy i < h) ->
    (forall x y, x < w -> y < h -> exists i, In i l /\ qx i = x /\ qy i = y) ->
    exists im', for_list l body im = Ok im' /\ Repr im' w h g.
  Proof.
    intros D L Hb Hq Hs.
    destruct (Nat.eq_dec (w * h) 0) as [Z|NZ].
    - assert (l = []) as -> by (destruct l as [|i l]; auto; destruct (Hq i); simpl; auto; nia).
      exists im; split; [reflexivity|]; repeat split; auto; intros; nia.
    - destruct (pix im) as [|d p] eqn:E; [simpl in L; lia|].
      apply (overlay l body qx qy im w h (fun x y => nth (y * w + x) (pix im) d) g); auto.
      + apply (Repr_exists d); auto; congruence.
      + intros x y Hx Hy HN; destruct (Hs x y Hx Hy) as (i & Hi & Ex & Ey); exfalso; eauto.
  Qed.
End Overlay.
