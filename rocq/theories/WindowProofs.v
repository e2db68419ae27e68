(** WindowProofs.v - windowed_filter *)
From Coq Require Import ZifyBool ZifyNat.
From Verif Require Import Base ImageModel ImageFacts IndexModel ImageProofs GeomModel GeomProofs PadProofs CropProofs
  PixelModel PixelProofs ConvModel BigSum ConvProofs ConvNProofs.
Open Scope nat_scope.

(** the image with extents [ds] and pixels [F] *)
Definition tab {A} (ds : list nat) (F : list nat -> A) : image A :=
  mkImage ds (map (fun k => F (unoff ds k)) (seq 0 (prodn ds))).

Lemma tab_ReprN {A} ds (F : list nat -> A) : ReprN (tab ds F) ds F.
Proof.
  split; [reflexivity|]; cbn [tab pix]; split; [rewrite map_length, seq_length; reflexivity|].
  intros idx H; rewrite nth_error_map, nth_error_seq by (apply off_lt, H); cbn [option_map].
  rewrite Nat.add_0_l, off_unoff; auto.
Qed.

Lemma tab_ext {A} ds (F G : list nat -> A) : (forall idx, in_range ds idx -> F idx = G idx) -> tab ds F = tab ds G.
Proof. intros H; eapply ReprN_unique; eauto using tab_ReprN. Qed.

Section Window.
  Context {A : Type} (d : A) (filter : image A -> A).

  (** the window of extents [ws] centred at [c] of an image with extents [pds] and pixels [P];
      positions outside the image hold [d] *)
  Definition window_of (P : list nat -> A) (pds ws c : list nat) : image A :=
    tab ws (fun out => if insideb (crop_poss c ws out) pds
                       then P (map Z.to_nat (crop_poss c ws out)) else d).

  (** the padded image after the pixels with offset below [k] of the region with extents [ds] placed
      at [offs] have been replaced by [F] *)
  Definition mix (P : list nat -> A) (ds offs : list nat) (F : list nat -> A) (k : nat) (q : list nat) : A :=
    if reachable ds q offs && (off ds (idx_sub q offs) <? k) then F (idx_sub q offs) else P q.

  Definition wbody (ds offs ws : list nat) (idx : nat) (padded : image A) : res (image A) :=
    let* indices := linear_index_to_indices idx ds in
    let* window := subimage d padded ws (idx_add indices offs) d in
    at_range_set padded (idx_add indices offs) (filter window).

  Variables (ds offs ws pds : list nat).
  Hypothesis Lo : length offs = length ds.
  Hypothesis Lw : length ws = length ds.
  Hypothesis Ep : pds = map (fun ab => fst ab + 2 * snd ab) (combine ds offs).
  Hypothesis Pw : 0 < prodn ws.
  Hypothesis Small : Forall (fun n => (Z.of_nat n <= 2 ^ 62)%Z) pds.
  Hypothesis SmallW : Forall (fun n => (Z.of_nat n <= 2 ^ 62)%Z) ws.

  Lemma Lp : length pds = length ds.
  Proof. rewrite Ep, map_length, combine_length; lia. Qed.

  Lemma shifted_in idx : in_range ds idx -> in_range pds (idx_add idx offs).
  Proof.
    rewrite Ep; intros H; clear - Lo H; revert offs Lo; induction H as [|a n idx ds Ha H IH]; intros [|o offs] L; simpl in *; try lia.
    - constructor.
    - constructor; [lia|]; apply IH; lia.
  Qed.

  Lemma idx_add_sub idx : in_range ds idx -> reachable ds (idx_add idx offs) offs = true /\ idx_sub (idx_add idx offs) offs = idx.
  Proof.
    intros H; clear - Lo H; revert offs Lo; induction H as [|a n idx ds Ha H IH]; intros [|o offs] L; simpl in *; try lia; auto.
    destruct (IH offs) as [-> ->]; [lia|]; split; [|f_equal; lia].
    replace (o <=? a + o) with true by lia; replace (a + o - o <? n) with true by lia; reflexivity.
  Qed.

  Lemma idx_add_comm a b : idx_add a b = idx_add b a.
  Proof. clear; revert b; induction a as [|x a IH]; intros [|y b]; simpl; auto; rewrite IH; f_equal; lia. Qed.

  Lemma wbody_ok padded P k : ReprN padded pds P -> k < prodn ds ->
    wbody ds offs ws k padded =
    Ok (im_upd padded (off pds (idx_add (unoff ds k) offs))
          (filter (window_of P pds ws (idx_add (unoff ds k) offs)))).
  Proof.
    intros R Hk; unfold wbody, linear_index_to_indices.
    rewrite lin2idx_loop_spec by (eauto using prodn_pos); rewrite Nat.div_1_r; cbn [bind].
    destruct (unoff_spec ds k Hk) as [IR _].
    pose proof (shifted_in _ IR) as Hc; set (c := idx_add (unoff ds k) offs) in *.
    destruct (subimage_ReprN d padded pds P ws c d R) as (o & E & Ro); auto.
    - rewrite Lp; exact Lw.
    - apply in_range_length, Hc.
    - split.
      + eapply Forall_impl; [|exact Small]; intros n Hn; cbv beta in *; lia.
      + assert (Lc : length c = length ws) by (rewrite (in_range_length _ _ Hc), Lp; auto).
        clear - Hc Small SmallW Lc; revert ws SmallW Lc; induction Hc as [|x n c pds Hx Hc IH]; intros [|w ws] SW L;
          simpl in L; try lia; constructor.
        * inversion Small; inversion SW; subst; unfold fits, two64; lia.
        * apply IH; auto; [inversion Small; auto | inversion SW; auto].
    - rewrite E; cbn [bind].
      replace o with (window_of P pds ws c) by (eapply ReprN_unique; [apply tab_ReprN | exact Ro | auto]).
      destruct R as (D & L & _); unfold at_range_set; rewrite D, check_bounds_in by exact Hc; cbn [bind].
      rewrite calculate_index_off by (rewrite (in_range_length _ _ Hc); lia); cbn [bind].
      rewrite vset_ok by (rewrite L; apply off_lt, Hc); cbn [bind]; unfold im_upd; rewrite D; reflexivity.
  Qed.

  Lemma upd_ReprN (padded : image A) P q v : ReprN padded pds P -> in_range pds q ->
    ReprN (im_upd padded (off pds q) v) pds (fun p => if list_eq_dec Nat.eq_dec p q then v else P p).
  Proof.
    intros (D & L & H) Hq; split; [exact D|]; split; [cbn; rewrite list_upd_length; exact L|].
    intros p Hp; cbn [im_upd pix]; destruct (list_eq_dec Nat.eq_dec p q) as [->|N].
    - apply list_upd_same; rewrite L; apply off_lt, Hq.
    - rewrite list_upd_other; [apply H, Hp|]; intros E; apply N; eapply off_inj; eauto.
  Qed.

  Lemma window_ext (P P' : list nat -> A) c : (forall q, in_range pds q -> P q = P' q) -> length c = length ds ->
    window_of P pds ws c = window_of P' pds ws c.
  Proof.
    intros H L; apply tab_ext; intros out Ho.
    destruct (insideb (crop_poss c ws out) pds) eqn:E; auto.
    apply H, inside_in_range, inside_b; auto.
    rewrite crop_poss_length; rewrite ?Lp; try lia; apply in_range_length in Ho; lia.
  Qed.

  (** sequential processing *)
  Lemma wloop_seq (padded : image A) P n : ReprN padded pds P -> n <= prodn ds ->
    exists o F, for_list (seq 0 n) (wbody ds offs ws) padded = Ok o /\ ReprN o pds (mix P ds offs F n) /\
      forall idx, in_range ds idx -> off ds idx < n ->
        F idx = filter (window_of (mix P ds offs F (off ds idx)) pds ws (idx_add idx offs)).
  Proof.
    intros R; induction n as [|n IH]; intros Hn.
    - exists padded, (fun _ => d); split; [reflexivity|]; split; [|intros; lia].
      refine (ReprN_ext _ _ _ _ R _); intros q _; unfold mix; rewrite andb_false_r; reflexivity.
    - destruct IH as (o & F & E & Ro & HF); [lia|].
      destruct (unoff_spec ds n) as [IR En]; [lia|].
      set (i := unoff ds n) in *; set (c := idx_add i offs).
      set (v := filter (window_of (mix P ds offs F n) pds ws c)).
      set (F' := fun idx => if list_eq_dec Nat.eq_dec idx i then v else F idx).
      assert (M : forall k q, k <= n -> mix P ds offs F' k q = mix P ds offs F k q).
      { intros k q Hk; unfold mix, F'; destruct (reachable ds q offs) eqn:Er; cbn [andb]; auto.
        destruct (Nat.ltb_spec (off ds (idx_sub q offs)) k); auto.
        destruct (list_eq_dec Nat.eq_dec (idx_sub q offs) i) as [Ei|]; auto.
        rewrite Ei in *; lia. }
      assert (Lc : length c = length ds)
        by (unfold c; rewrite (in_range_length _ _ (shifted_in _ IR)); apply Lp).
      exists (im_upd o (off pds c) v), F'; split; [|split].
      + rewrite seq_S, for_list_app, E; cbn [bind for_list]; rewrite Nat.add_0_l.
        rewrite (wbody_ok o _ n Ro) by lia; reflexivity.
      + refine (ReprN_ext _ _ _ _ (upd_ReprN o _ c v Ro (shifted_in _ IR)) _).
        intros q Hq; cbv beta; destruct (list_eq_dec Nat.eq_dec q c) as [->|Nq].
        * unfold mix, c; destruct (idx_add_sub i IR) as [-> ->]; rewrite En.
          replace (n <? S n) with true by lia; cbn [andb]; unfold F'.
          destruct (list_eq_dec Nat.eq_dec i i); congruence.
        * rewrite <- (M n q) by lia; unfold mix; destruct (reachable ds q offs) eqn:Er; cbn [andb]; auto.
          destruct (reachable_spec _ _ _ Er) as [Hs Es].
          assert (off ds (idx_sub q offs) <> n).
          { intros Eo; apply Nq; unfold c; rewrite idx_add_comm, <- Es; f_equal.
            eapply off_inj; eauto; congruence. }
          destruct (Nat.ltb_spec (off ds (idx_sub q offs)) n), (Nat.ltb_spec (off ds (idx_sub q offs)) (S n)); auto; lia.
      + intros idx Hidx Hlt.
        assert (La : length (idx_add idx offs) = length ds)
          by (rewrite (in_range_length _ _ (shifted_in _ Hidx)); apply Lp).
        rewrite (window_ext _ (mix P ds offs F (off ds idx))) by (auto; intros; apply M; lia).
        unfold F' at 1; destruct (list_eq_dec Nat.eq_dec idx i) as [->|Ni].
        * unfold v, c; rewrite En; reflexivity.
        * apply HF; auto; assert (off ds idx <> n); [|lia].
          intros Eo; apply Ni; eapply off_inj; eauto; congruence.
  Qed.

  (** the centre of the padded image is the centre of the region plus the padding *)
  Lemma crop_back out : in_range ds out ->
    crop_poss (map (fun n => n / 2) pds) ds out = map Z.of_nat (idx_add out offs).
  Proof.
    rewrite Ep; intros H; clear - Lo H; revert offs Lo; induction H as [|a n idx ds Ha H IH]; intros [|o offs] L;
      cbn [length] in L; try lia; auto.
    cbn [combine map crop_poss idx_add fst snd]; rewrite IH by lia; f_equal.
    unfold crop_pos; replace (n + 2 * o) with (n + o * 2) by lia; rewrite Nat.div_add by lia; lia.
  Qed.

  Lemma crop_region (o : image A) Q : ReprN o pds Q -> 0 < prodn ds -> 
    exists r, subimage d o ds (map (fun n => n / 2) pds) d = Ok r /\ ReprN r ds (fun idx => Q (idx_add idx offs)).
  Proof.
    intros R Hp.
    destruct (subimage_ReprN d o pds Q ds (map (fun n => n / 2) pds) d R) as (r & E & Rr).
    - symmetry; apply Lp.
    - apply map_length.
    - exact Hp.
    - split; [eapply Forall_impl; [|exact Small]; intros n Hn; cbv beta in *; lia|].
      rewrite Ep in Small |- *; clear - Lo Small; revert offs Lo Small; induction ds as [|n ns IH]; intros [|o os] L S;
        cbn [length] in L; try lia; cbn [combine map fst snd] in *; constructor.
      + inversion S; subst. assert ((n + 2 * o) / 2 <= n + 2 * o) by (apply Nat.div_le_upper_bound; lia).
        unfold fits, two64; lia.
      + apply IH; [lia | inversion S; auto].
    - exists r; split; auto; refine (ReprN_ext _ _ _ _ Rr _); intros idx Hi; cbv beta.
      rewrite crop_back by exact Hi.
      pose proof (shifted_in _ Hi) as Hs.
      replace (insideb (map Z.of_nat (idx_add idx offs)) pds) with true.
      + f_equal; rewrite map_map; transitivity (map (fun x : nat => x) (idx_add idx offs));
          [apply map_ext; intros; lia | apply map_id].
      + symmetry; apply inside_b; [rewrite map_length; apply in_range_length, Hs|].
        clear - Hs; induction Hs; cbn [map]; constructor; auto; lia.
  Qed.

  (** windows of one pixel: any order *)
  Lemma window_one P c : Forall (fun n => n = 1) ws -> in_range pds c -> 
    window_of P pds ws c = tab ws (fun _ => P c).
  Proof.
    intros H1 Hc; apply tab_ext; intros out Ho.
    assert (Q : crop_poss c ws out = map Z.of_nat c).
    { assert (L : length c = length ws) by (rewrite (in_range_length _ _ Hc), Lp; auto).
      clear - H1 Ho L; revert c L; induction Ho as [|a w out ws Ha Ho IH]; intros [|x c] L; cbn [length] in L; try lia; auto.
      inversion H1; subst; cbn [crop_poss map]; rewrite IH by (auto; lia); f_equal.
      unfold crop_pos; replace (1 / 2) with 0 by reflexivity; lia. }
    rewrite Q; replace (insideb (map Z.of_nat c) pds) with true.
    - f_equal; rewrite map_map; transitivity (map (fun x : nat => x) c); [apply map_ext; intros; lia | apply map_id].
    - symmetry; apply inside_b; [rewrite map_length; apply in_range_length, Hc|].
      clear - Hc; induction Hc; cbn [map]; constructor; auto; lia.
  Qed.

  Lemma wloop_one P : Forall (fun n => n = 1) ws -> forall l, NoDup l -> (forall k, In k l -> k < prodn ds) ->
    forall padded Q, ReprN padded pds Q ->
    (forall k, In k l -> Q (idx_add (unoff ds k) offs) = P (idx_add (unoff ds k) offs)) ->
    exists o R, for_list l (wbody ds offs ws) padded = Ok o /\ ReprN o pds R /\
      (forall k, In k l -> R (idx_add (unoff ds k) offs) = filter (tab ws (fun _ => P (idx_add (unoff ds k) offs)))) /\
      (forall q, (forall k, In k l -> q <> idx_add (unoff ds k) offs) -> R q = Q q).
  Proof.
    intros H1; induction l as [|k l IH]; intros ND Hl padded Q R HQ.
    - exists padded, Q; repeat split; auto; try apply R; intros k [].
    - apply NoDup_cons_iff in ND; destruct ND as [NI ND'].
      cbn [for_list]; rewrite (wbody_ok padded Q k R) by (apply Hl; simpl; auto); cbn [bind].
      destruct (unoff_spec ds k) as [IR Ek]; [apply Hl; simpl; auto|].
      pose proof (shifted_in _ IR) as Hc; set (c := idx_add (unoff ds k) offs) in *.
      pose proof (HQ k (or_introl eq_refl)) as HQk; fold c in HQk.
      rewrite (window_one Q c H1 Hc), HQk.
      assert (Dis : forall j, In j l -> idx_add (unoff ds j) offs <> c).
      { intros j Hj E; apply NI; replace k with j; auto.
        destruct (unoff_spec ds j) as [IRj Ej]; [apply Hl; simpl; auto|].
        rewrite <- Ej, <- Ek; f_equal.
        rewrite <- (proj2 (idx_add_sub _ IRj)), <- (proj2 (idx_add_sub _ IR)), E; reflexivity. }
      destruct (IH ND' (fun j Hj => Hl j (or_intror Hj)) _ _
        (upd_ReprN padded Q c (filter (tab ws (fun _ => P c))) R Hc)) as (o & T & E & RT & T1 & T2).
      { intros j Hj; cbv beta; destruct (list_eq_dec Nat.eq_dec (idx_add (unoff ds j) offs) c) as [C|_];
          [exfalso; eapply Dis; eauto | apply HQ; simpl; auto]. }
      exists o, T; split; [exact E|]; split; [exact RT|]; split.
      + intros j [<-|Hj]; [|apply T1; auto].
        fold c; rewrite (T2 c); [destruct (list_eq_dec Nat.eq_dec c c); congruence|].
        intros j Hj C; eapply Dis; eauto.
      + intros q Hq; rewrite (T2 q) by (intros j Hj; apply Hq; simpl; auto).
        destruct (list_eq_dec Nat.eq_dec q c) as [C|_]; auto; exfalso; apply (Hq k); simpl; auto.
  Qed.
End Window.
