(** BilateralProofs.v - the windows, the two kernels and the weighted mean of bilateral_filter *)
From Coq Require Import Reals Lra ZifyBool ZifyNat.
From Verif Require Import Base ImageModel ImageFacts IndexModel ImageProofs GeomModel GeomProofs PadProofs CropProofs
  OField PixelModel PixelProofs ReduceModel SiftModel ConvModel BigSum RSum ConvNProofs WindowProofs GaussProofs TurnProofs
  BilateralModel.
Open Scope nat_scope.

(** ** sums *)
Lemma rsum_ge_term {I} (f : I -> R) l i : (forall j, In j l -> 0 <= f j)%R -> In i l -> (f i <= rsum f l)%R.
Proof.
  induction l as [|j l IH]; intros H []; rewrite rsum_cons.
  - subst j; pose proof (rsum_nonneg f l (fun k Hk => H k (or_intror Hk))); lra.
  - pose proof (H j (or_introl eq_refl)); specialize (IH (fun k Hk => H k (or_intror Hk)) H0); lra.
Qed.

(** the mean of [val] with the weights [wt] *)
Definition wmean {I} (val wt : I -> R) (l : list I) : R := (rsum (fun i => val i * wt i) l / rsum wt l)%R.

Lemma wmean_bounds {I} (val wt : I -> R) l lo hi :
  (forall i, In i l -> 0 <= wt i)%R -> (0 < rsum wt l)%R -> (forall i, In i l -> lo <= val i <= hi)%R ->
  (lo <= wmean val wt l <= hi)%R.
Proof.
  intros Hw P Hv; unfold wmean.
  assert (L : (lo * rsum wt l <= rsum (fun i => val i * wt i) l)%R).
  { rewrite <- rsum_scale; apply rsum_le; intros i Hi; apply Rmult_le_compat_r; [apply Hw | apply Hv]; auto. }
  assert (U : (rsum (fun i => val i * wt i) l <= hi * rsum wt l)%R).
  { rewrite <- rsum_scale; apply rsum_le; intros i Hi; apply Rmult_le_compat_r; [apply Hw | apply Hv]; auto. }
  pose proof (Rinv_0_lt_compat _ P) as Pi.
  split; unfold Rdiv.
  - replace lo with (lo * rsum wt l * / rsum wt l)%R by (field; lra); apply Rmult_le_compat_r; lra.
  - replace hi with (hi * rsum wt l * / rsum wt l)%R by (field; lra); apply Rmult_le_compat_r; lra.
Qed.

Lemma wmean_ext {I} (v v' wt wt' : I -> R) l : (forall i, In i l -> v i = v' i) -> (forall i, In i l -> wt i = wt' i) ->
  wmean v wt l = wmean v' wt' l.
Proof.
  intros H1 H2; unfold wmean; rewrite (rsum_ext wt wt' l) by auto.
  rewrite (rsum_ext (fun i => v i * wt i)%R (fun i => v' i * wt' i)%R l); auto.
  intros i Hi; rewrite H1, H2; auto.
Qed.

Lemma wmean_map {I J} (h : J -> I) (v wt : I -> R) l : wmean v wt (map h l) = wmean (fun j => v (h j)) (fun j => wt (h j)) l.
Proof. unfold wmean; rewrite !(bsum_map 0%R Rplus h); reflexivity. Qed.

(** ** windows *)
Lemma subimage_shape {A} (d : A) im ws cs df o : subimage d im ws cs df = Ok o -> dims o = ws /\ length (pix o) = prodn ws.
Proof.
  unfold subimage; destruct (negb _ || negb _); [discriminate|].
  destruct (image_data (repeat d (prodn ws)) ws) as [o0| |] eqn:E0; cbn [bind]; try discriminate.
  assert (H0 : dims o0 = ws /\ length (pix o0) = prodn ws).
  { unfold image_data in E0; destruct (repeat d (prodn ws)) as [|a l] eqn:Er; [discriminate|].
    destruct (negb _); [discriminate|]; injection E0 as <-; split; auto; cbn [pix]; rewrite <- Er; apply repeat_length. }
  unfold for_range; apply (for_list_inv (fun o => dims o = ws /\ length (pix o) = prodn ws)); auto.
  intros k s s' _ (D & L); unfold linear_index_to_indices_strides.
  destruct (mapM _ _) as [oi| |]; cbn [bind]; try discriminate.
  assert (G : forall v, set_index s k v = Ok s' -> dims s' = ws /\ length (pix s') = prodn ws).
  { intros v; unfold set_index, vset; destruct (_ <=? _); [discriminate|].
    destruct (k <? length (pix s)); cbn [bind]; [|discriminate].
    intros E; injection E as <-; cbn [dims pix]; rewrite list_upd_length; auto. }
  destruct (subimage_index _ _ _) as [ii|]; [destruct (at_range im ii); cbn [bind]; try discriminate|]; apply G.
Qed.

Lemma windowed_filter_pure {A} (d : A) sg s im ws fr f bc c :
  (forall win, dims win = ws -> length (pix win) = prodn ws -> fr win = Ok (f win)) ->
  windowed_filter_res d sg s im ws fr bc c = windowed_filter d sg s im ws f bc c.
Proof.
  intros H; unfold windowed_filter_res, windowed_filter; destruct (negb _); auto.
  match goal with |- bind ?p _ = _ => destruct p as [padded| |] end; cbn [bind]; auto.
  match goal with |- bind (for_list ?l ?b ?s) _ = bind (for_list ?l ?b' ?s) _ => rewrite (for_list_ext l b b' s); auto end.
  intros k st _; destruct (linear_index_to_indices k (dims im)) as [ind| |]; cbn [bind]; auto.
  match goal with |- bind ?p _ = _ => destruct p as [win| |] eqn:Ew end; cbn [bind]; auto.
  apply subimage_shape in Ew; rewrite H by tauto; reflexivity.
Qed.

(** ** distances of positions *)
Definition sdist (a b : list nat) : R := match spatial_distance a b with Ok r => r | _ => 0%R end.
Lemma spatial_distance_ok a b : length a = length b -> spatial_distance a b = Ok (sdist a b).
Proof.
  intros L; unfold sdist, spatial_distance; rewrite L, Nat.eqb_refl; cbn [negb].
  match goal with |- context [for_range ?n ?b ?s] =>
    destruct (for_range_inv n (fun _ _ => True) b s) as (r & E & _); auto; [|rewrite E; reflexivity] end.
  intros i s Hi _; destruct (vget_lt a i) as (x & Ea & _); [lia|]; destruct (vget_lt b i) as (y & Eb & _); [lia|].
  rewrite Ea, Eb; cbn [bind]; eauto.
Qed.

Lemma sdist_self a : sdist a a = 0%R.
Proof.
  assert (E : spatial_distance a a = Ok 0%R); [|unfold sdist; rewrite E; reflexivity].
  unfold spatial_distance; rewrite Nat.eqb_refl; cbn [negb].
  match goal with |- context [for_range ?n ?b ?s] =>
    destruct (for_range_inv n (fun _ v => v = 0%R) b s) as (r & E & ->); auto; [|rewrite E; cbn [bind]; rewrite sqrt_0; reflexivity] end.
  intros i s Hi ->; destruct (vget_lt a i) as (x & Ea & _); [lia|].
  rewrite Ea; cbn [bind]; eexists; split; [reflexivity|].
  rewrite Z.sub_diag; unfold w64; rewrite Z.mod_0_l by (unfold two64; lia); lra.
Qed.

Lemma sdist2 u v a b : sdist [u; v] [a; b] =
  sqrt (0 + IZR (w64 (Z.of_nat u - Z.of_nat a)) * IZR (w64 (Z.of_nat u - Z.of_nat a))
          + IZR (w64 (Z.of_nat v - Z.of_nat b)) * IZR (w64 (Z.of_nat v - Z.of_nat b))).
Proof. reflexivity. Qed.

Lemma range_distance_abs a b : range_distance a b = Rabs (a - b).
Proof. apply sqrt_Rsqr_abs. Qed.

(** ** the window's kernel and mean *)
Definition middle (ws : list nat) : list nat := map (fun n => n / 2) ws.
Lemma middle_in ws : 0 < prodn ws -> in_range ws (middle ws).
Proof.
  intros P; pose proof (prodn_pos _ _ P) as F; clear P; induction ws as [|n ws IH]; [constructor|].
  inversion F; subst; cbn [middle map]; constructor; [apply Nat.div_lt; lia | apply IH; auto].
Qed.

Lemma atu_range_ReprN {A} (im : image A) ds f idx : ReprN im ds f -> in_range ds idx -> atu_range im idx = Ok (f idx).
Proof.
  intros (D & L & H) I; unfold atu_range; rewrite D, calculate_index_off by (rewrite (in_range_length _ _ I); lia).
  cbn [bind]; apply vget_ok, H, I.
Qed.

Lemma lin_unoff ds k : k < prodn ds -> linear_index_to_indices k ds = Ok (unoff ds k).
Proof.
  intros H; unfold linear_index_to_indices; rewrite lin2idx_loop_spec by (eauto using prodn_pos).
  rewrite Nat.div_1_r; reflexivity.
Qed.

Section Bilateral.
  Variable cast : R -> R.
  Variables rk sk : R -> R.

  Lemma spatial_kernel_ok ws : ws <> [] -> 0 < prodn ws ->
    exists k, bilateral_filter_spatial_kernel sk ws = Ok k /\ ReprN k ws (fun idx => sk (sdist idx (middle ws))).
  Proof.
    intros NE P; unfold bilateral_filter_spatial_kernel, image_sizes_range.
    destruct ws as [|n ws'] eqn:Ews; [contradiction|]; rewrite <- Ews in *; clear Ews NE n ws'.
    cbn [bind]; unfold get_center_location, count; cbn [dims]; fold (middle ws).
    pose proof (middle_in ws P) as IM.
    match goal with |- context [for_range ?n ?b ?s] =>
      destruct (for_range_inv n (fun i o => dims o = ws /\ length (pix o) = prodn ws /\
        forall k, k < i -> nth_error (pix o) k = Some (sk (sdist (unoff ws k) (middle ws)))) b s) as (o & E & D & L & H) end.
    - cbn [dims pix]; rewrite repeat_length; repeat split; auto; intros; lia.
    - intros i s Hi (D & L & H); rewrite D, lin_unoff by auto; cbn [bind].
      destruct (unoff_spec ws i Hi) as [IR Eo].
      rewrite spatial_distance_ok by (rewrite (in_range_length _ _ IR), (in_range_length _ _ IM); auto); cbn [bind].
      unfold atu_range_set; rewrite D, calculate_index_off by (rewrite (in_range_length _ _ IR); lia); cbn [bind].
      rewrite Eo, vset_ok by lia; cbn [bind]; eexists; split; [reflexivity|]; cbn [dims pix]; rewrite list_upd_length.
      split; auto; split; auto; intros k Hk; destruct (Nat.eq_dec k i) as [->|N].
      + apply list_upd_same; lia.
      + rewrite list_upd_other by auto; apply H; lia.
    - exists o; split; [exact E|]; split; auto; split; auto; intros idx I.
      rewrite H by (apply off_lt, I); rewrite off_unoff; auto.
  Qed.

  (** the weight of position number [k] of a window with values [W] *)
  Definition bweight (ws : list nat) (W : list nat -> R) (k : nat) : R :=
    (rk (Rabs (W (unoff ws k) - W (middle ws))) * sk (sdist (unoff ws k) (middle ws)))%R.

  Lemma detail_ok win k ws W : ReprN win ws W -> ReprN k ws (fun idx => sk (sdist idx (middle ws))) -> 0 < prodn ws ->
    rsum (bweight ws W) (seq 0 (prodn ws)) <> 0%R ->
    bilateral_filter_detail cast rk win k = Ok (cast (wmean (fun i => W (unoff ws i)) (bweight ws W) (seq 0 (prodn ws)))).
  Proof.
    intros Rw Rk P NZ; unfold bilateral_filter_detail, get_center_pixel, get_center_location, count.
    pose proof (ReprN_dims _ _ _ Rw) as D; rewrite D; fold (middle ws).
    rewrite (atu_range_ReprN _ _ _ _ Rw (middle_in ws P)); cbn [bind].
    match goal with |- context [for_range ?n ?b ?s] =>
      destruct (for_range_inv n (fun i acc => acc =
        (rsum (fun i => W (unoff ws i) * bweight ws W i)%R (seq 0 i), rsum (bweight ws W) (seq 0 i))) b s) as (r & E & ->) end.
    - cbn [seq]; rewrite !rsum_nil; reflexivity.
    - intros i s Hi ->; destruct (unoff_spec ws i Hi) as [IR _].
      rewrite lin_unoff by auto; cbn [bind]; rewrite (atu_range_ReprN _ _ _ _ Rw IR); cbn [bind].
      rewrite (atu_range_ReprN _ _ _ _ Rk IR); cbn [bind fst snd]; eexists; split; [reflexivity|].
      rewrite !rsum_snoc; unfold bweight; rewrite range_distance_abs; f_equal; ring.
    - rewrite E; cbn [bind fst snd]; rewrite reqb_false by auto; reflexivity.
  Qed.

  Hypothesis Rnn : forall t, (0 <= rk t)%R.
  Hypothesis Snn : forall t, (0 <= sk t)%R.
  Hypothesis R0 : (0 < rk 0)%R.
  Hypothesis S0 : (0 < sk 0)%R.

  Lemma bweight_nonneg ws W k : (0 <= bweight ws W k)%R.
  Proof. apply Rmult_le_pos; auto. Qed.

  Lemma bweight_sum_pos ws W : 0 < prodn ws -> (0 < rsum (bweight ws W) (seq 0 (prodn ws)))%R.
  Proof.
    intros P; pose proof (middle_in ws P) as IM.
    apply Rlt_le_trans with (bweight ws W (off ws (middle ws))).
    - unfold bweight; rewrite off_unoff by auto; rewrite sdist_self, Rminus_diag_eq, Rabs_R0 by auto.
      apply Rmult_lt_0_compat; auto.
    - apply rsum_ge_term; [intros; apply bweight_nonneg | apply in_seq; pose proof (off_lt _ _ IM); lia].
  Qed.

  (** what happens to one window *)
  Definition bvalue (ws : list nat) (W : list nat -> R) : R :=
    cast (wmean (fun i => W (unoff ws i)) (bweight ws W) (seq 0 (prodn ws))).

  Definition bwindow (ws : list nat) (win : image R) : res R :=
    let* k := bilateral_filter_spatial_kernel sk ws in bilateral_filter_detail cast rk win k.
  Definition bfilter (ws : list nat) (win : image R) : R := match bwindow ws win with Ok v => v | _ => 0%R end.

  Lemma bwindow_ok ws win W : ws <> [] -> 0 < prodn ws -> ReprN win ws W -> bwindow ws win = Ok (bvalue ws W).
  Proof.
    intros NE P Rw; unfold bwindow; destruct (spatial_kernel_ok ws NE P) as (k & -> & Rk); cbn [bind].
    apply detail_ok; auto; pose proof (bweight_sum_pos ws W P); lra.
  Qed.
  Lemma bfilter_ok ws win W : ws <> [] -> 0 < prodn ws -> ReprN win ws W -> bfilter ws win = bvalue ws W.
  Proof. intros NE P Rw; unfold bfilter; rewrite (bwindow_ok ws win W); auto. Qed.

  Lemma shape_ReprN (win : image R) ws : dims win = ws -> length (pix win) = prodn ws ->
    ReprN win ws (fun idx => nth (off ws idx) (pix win) 0%R).
  Proof.
    intros D L; split; auto; split; auto; intros idx I; apply nth_error_nth'; rewrite L; apply off_lt, I.
  Qed.

  Lemma bilateral_pure sg s im ws bc c : ws <> [] -> 0 < prodn ws ->
    bilateral_filter cast rk sk sg s im ws bc c = windowed_filter 0%R sg s im ws (bfilter ws) bc c.
  Proof.
    intros NE P; unfold bilateral_filter; apply windowed_filter_pure; intros win D L.
    pose proof (shape_ReprN win ws D L) as Rw.
    change (bwindow ws win = Ok (bfilter ws win)); unfold bfilter; rewrite (bwindow_ok ws win _ NE P Rw); reflexivity.
  Qed.

  Lemma bvalue_bounds ws W lo hi : 0 < prodn ws -> (forall a b, (a <= b)%R -> (cast a <= cast b)%R) ->
    cast lo = lo -> cast hi = hi -> (forall idx, in_range ws idx -> lo <= W idx <= hi)%R -> (lo <= bvalue ws W <= hi)%R.
  Proof.
    intros P Mono Clo Chi HW; unfold bvalue.
    destruct (wmean_bounds (fun i => W (unoff ws i)) (bweight ws W) (seq 0 (prodn ws)) lo hi) as [B1 B2].
    - intros; apply bweight_nonneg.
    - apply bweight_sum_pos; auto.
    - intros i Hi; apply in_seq0 in Hi; apply HW, unoff_spec, Hi.
    - rewrite <- Clo at 1; rewrite <- Chi; split; apply Mono; auto.
  Qed.
End Bilateral.
