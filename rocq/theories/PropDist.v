(** PropDist.v - property C188: manhattan_distance of pictures of doubles when every operation rounds.  The specification uses real
    numbers only. *)
From Coq Require Import ZArith Reals Bool List Lia Lra Psatz Permutation ZifyBool.
From Verif Require Import Base ImageModel ImageFacts ArithProofs FloatModel FloatProofs RoundModel RoundProofs PropRound HueModel PropHue PropSumError NormModel PropNorm DistModel.
Import ListNotations.
Open Scope Z_scope.

Lemma dfold_sums s l r : dfold s l r -> forall k, sums k s -> sums (k ++ l) r.
Proof.
  induction 1 as [s|s t a l r D F IH]; intros k S; [rewrite app_nil_r; exact S|].
  replace (k ++ a :: l) with ((k ++ [a]) ++ l) by (rewrite <- app_assoc; reflexivity); apply IH; eapply sums_snoc; eauto.
Qed.
Lemma dfold_total : forall l s, pattern s -> Forall pattern l -> exists r, dfold s l r /\ pattern r.
Proof.
  induction l as [|a l IH]; intros s P F; [exists s; split; [constructor|exact P]|]; inversion F as [|? ? Pa Fl]; subst.
  destruct (C184_addition s a P Pa) as ((t & D) & _); destruct (IH t (dadd_pattern _ _ _ D) Fl) as (r & R & Pr); exists r; split; [econstructor; eauto|exact Pr].
Qed.
Lemma dlt_fin_true a b x y : means a (Fin x) -> means b (Fin y) -> dlt a b = true -> (x < y)%R.
Proof.
  intros Ma Mb D; pose proof (means_pattern _ _ Ma) as Pa; pose proof (means_pattern _ _ Mb) as Pb; apply dlt_meaning in D; auto.
  apply means_meaning in Ma, Mb; auto; rewrite <- Ma, <- Mb in D; inversion D; subst; assumption.
Qed.
Lemma ddiff_fin a b c x y : means a (Fin x) -> means b (Fin y) -> ddiff a b c <-> rounds (Rabs (x - y)) c.
Proof.
  intros Ma Mb; unfold ddiff; destruct (dlt b a) eqn:D.
  - apply (dlt_fin_true _ _ _ _ Mb Ma) in D; rewrite Rabs_right by lra; split; [apply dsub_fin; auto|]; intros R; exists (Fin x), (Fin y); auto.
  - apply (dlt_fin _ _ _ _ Mb Ma) in D; rewrite Rabs_left1, Ropp_minus_distr by lra; split; [apply dsub_fin; auto|]; intros R; exists (Fin y), (Fin x); auto.
Qed.
Lemma ddiff_total a b : pattern a -> pattern b -> exists c, ddiff a b c.
Proof. intros Pa Pb; unfold ddiff; destruct (dlt b a); apply dsub_total; auto. Qed.
Lemma differences_pattern (lx ly s : list bits) : length s = length lx -> length lx = length ly -> (forall i a b, nth_error lx i = Some a -> nth_error ly i = Some b -> exists c, nth_error s i = Some c /\ ddiff a b c) -> Forall pattern s.
Proof.
  intros L1 L2 H; apply Forall_forall; intros c Hc; apply In_nth_error in Hc; destruct Hc as [i Hj]; assert (Hi : @nth_error bits s i = Some c) by exact Hj; clear Hj.
  assert (HL : (i < length lx)%nat) by (rewrite <- L1; apply nth_error_Some; intros K; rewrite K in Hi; discriminate); assert (HL' := HL); rewrite L2 in HL'.
  apply nth_error_Some in HL, HL'; destruct (nth_error lx i) as [a|] eqn:Ea; [|congruence]; destruct (nth_error ly i) as [b|] eqn:Eb; [|congruence].
  destruct (H i a b Ea Eb) as (c' & Nc & D); assert (c' = c) as -> by (apply (eq_trans (eq_sym Nc)) in Hi; injection Hi; auto).
  unfold ddiff in D; destruct (dlt b a); destruct D as (v & w & _ & _ & R); eapply rounded_pattern, R.
Qed.
Lemma ddiff_not_negative a b c x y : means a (Fin x) -> means b (Fin y) -> ddiff a b c -> not_negative c /\ (means c (Fin 0) <-> x = y).
Proof.
  intros Ma Mb D; apply (ddiff_fin _ _ _ _ _ Ma Mb) in D; pose proof (Rabs_pos (x - y)) as P; destruct (int_double 0 ltac:(lia)) as [b0 M0].
  assert (NZ : x <> y -> (unit_ <= Rabs (x - y))%R).
  { intros N; destruct (Rlt_le_dec x y) as [L|L].
    - rewrite Rabs_left1, Ropp_minus_distr by lra; apply (difference_pos a b x y Ma Mb L).
    - rewrite Rabs_right by lra; apply (difference_pos b a y x Mb Ma); lra. }
  destruct unit_double as [bu Mu]; pose proof unit_pos as U.
  unfold rounds in D; destruct (Rlt_dec (Rabs (Rabs (x - y))) too_large) as [S|S].
  - assert (R : rounds (Rabs (x - y)) c) by (unfold rounds; destruct (Rlt_dec _ _); [exact D|contradiction]); destruct D as (r & Mr & _).
    assert (R0 : (0 <= r)%R) by (eapply (rounds_above _ _ _ _ _ M0); [|exact R|exact Mr]; exact P).
    split; [right; exists r; auto|]; split.
    + intros M; destruct (Req_dec x y) as [E|N]; [exact E|]; pose proof (rounds_above _ _ _ _ _ Mu (NZ N) R M); lra.
    + intros ->; rewrite Rminus_diag_eq, Rabs_R0 in R by reflexivity; apply (rounds_exact _ _ _ M0) in R; exact R.
  - destruct (Rlt_dec (Rabs (x - y)) 0) as [L|L]; [lra|]; split; [left; exact D|]; split.
    + intros M; pose proof (means_inj _ _ _ D M); discriminate.
    + intros ->; exfalso; apply S; rewrite Rminus_diag_eq, !Rabs_R0 by reflexivity; pose proof (means_not_large _ _ M0) as K; rewrite Rabs_R0 in K; exact K.
Qed.
Lemma sums_zero l r : sums l r -> Forall (fun b => means b (Fin 0)) l -> means r (Fin 0).
Proof.
  induction 1 as [a|l l1 l2 a b c P S1 IH1 S2 IH2 D]; intros F; [inversion F; assumption|].
  apply (Permutation_Forall P), Forall_app in F; destruct F as [F1 F2]; destruct D as (v & w & Mv & Mw & R).
  rewrite (means_inj _ _ _ Mv (IH1 F1)), (means_inj _ _ _ Mw (IH2 F2)) in R; cbn [plus_number rounded] in R; rewrite Rplus_0_l in R; apply (rounds_exact _ _ _ (IH1 F1)) in R; exact R.
Qed.
(** the pixels of the difference *)
Lemma distance_inv (x y : image bits) r : wf x -> wf y -> dims x = dims y -> dmanhattan x y r ->
  exists d s, length d = length (pix x) /\ (forall i a b, nth_error (pix x) i = Some a -> nth_error (pix y) i = Some b -> exists c, nth_error d i = Some c /\ ddiff a b c) /\
    r = Ok s /\ dfold 0 d s /\ sums (0 :: d) s.
Proof.
  intros Wx Wy E D; unfold dmanhattan in D; rewrite E, size_eqb_same in D; destruct D as (d & s & C & F & ->); unfold combined in C; rewrite E, size_eqb_same in C.
  destruct C as (p & Lp & Q & Np); injection Q as ->; exists p, s; split; [exact Lp|]; split; [exact Np|]; split; [reflexivity|]; split; [exact F|].
  apply (dfold_sums _ _ _ F [0]); constructor.
Qed.
Lemma differences lx ly d : length ly = length lx -> length d = length lx -> (forall i a b, nth_error lx i = Some a -> nth_error ly i = Some b -> exists c, nth_error d i = Some c /\ ddiff a b c) ->
  forall xs ys, Forall2 (fun b x => means b (Fin x)) lx xs -> Forall2 (fun b x => means b (Fin x)) ly ys ->
  Forall not_negative d /\ (Forall (fun b => means b (Fin 0)) d <-> xs = ys) /\
  (forall es, Forall2 (fun b x => means b (Fin x)) d es -> Forall2 (fun e t => Rabs (t - e) <= u * t /\ 0 <= e)%R es (map (fun p => Rabs (fst p - snd p)) (combine xs ys))).
Proof.
  revert ly d; induction lx as [|a lx IH]; intros [|b ly] [|c d] L1 L2 N xs ys Fx Fy; try discriminate.
  - inversion Fx; inversion Fy; subst; split; [constructor|]; split; [split; [reflexivity|constructor]|]; intros es H; inversion H; constructor.
  - inversion Fx as [|? x ? xs' Mx Fx']; inversion Fy as [|? y ? ys' My Fy']; subst.
    destruct (N 0%nat a b eq_refl eq_refl) as (c' & Q & D); injection Q as <-.
    destruct (IH ly d) with (xs := xs') (ys := ys') as (I1 & I2 & I3); auto; [intros i; exact (N (S i))|].
    destruct (ddiff_not_negative _ _ _ _ _ Mx My D) as [D1 D2]; split; [constructor; auto|]; split.
    + split; [intros H; inversion H; subst; f_equal; [apply D2; auto|apply I2; auto]|]; intros H; injection H as -> ->; constructor; [apply D2; reflexivity|apply I2; reflexivity].
    + intros es H; inversion H as [|? e ? es' Me H']; subst; cbn [combine map fst snd]; constructor; [|apply I3, H'].
      assert (e >= 0)%R by (destruct D1 as [M|(z & M & Z)]; pose proof (means_inj _ _ _ M Me) as Q; [discriminate|injection Q as <-; lra]).
      split; [|lra]; apply (ddiff_fin _ _ _ _ _ Mx My) in D; destruct (Rle_dec y x) as [L|L].
      * rewrite (Rabs_right (x - y)) in * by lra; pose proof (sub_error _ _ _ _ _ _ Mx My D Me) as B; rewrite (Rabs_right (x - y)) in B by lra; exact B.
      * rewrite (Rabs_left1 (x - y)), Ropp_minus_distr in * by lra; pose proof (sub_error _ _ _ _ _ _ My Mx D Me) as B; rewrite (Rabs_right (y - x)) in B by lra; exact B.
Qed.

(** ** C188 *)
(** the distance of two pictures of finite doubles is a number that is not negative or positive infinity; it is 0 exactly if the
    pictures have the same values: no difference is rounded away *)
Theorem C188_zero (x y : image bits) xs ys r : wf x -> wf y -> dims x = dims y -> Forall2 (fun b x => means b (Fin x)) (pix x) xs -> Forall2 (fun b x => means b (Fin x)) (pix y) ys ->
  dmanhattan x y r -> exists s, r = Ok s /\ (means s (Inf false) \/ exists v, means s (Fin v) /\ (0 <= v)%R) /\ (means s (Fin 0) <-> xs = ys).
Proof.
  intros Wx Wy E Fx Fy D; destruct (distance_inv _ _ _ Wx Wy E D) as (d & s & Ld & Nd & -> & _ & S).
  destruct (differences (pix x) (pix y) d ltac:(unfold wf in *; congruence) Ld Nd xs ys Fx Fy) as (G1 & G2 & _).
  assert (Z0 : means 0 (Fin 0)) by (apply (bits_of_int_means 0); lia).
  destruct (sums_up _ _ S) as [P H]; [constructor; [right; exists 0%R; split; [exact Z0|lra]|exact G1]|].
  exists s; split; [reflexivity|]; split; [exact P|]; rewrite <- G2; split.
  - intros M; apply Forall_forall; intros b Hb; rewrite Forall_forall in G1; destruct (G1 b Hb) as [I|(v & Mv & V)].
    + exfalso; apply (H b _ _ (or_intror Hb) I M); constructor.
    + destruct (Rle_lt_or_eq_dec _ _ V) as [L|<-]; [|exact Mv]; exfalso; apply (H b _ _ (or_intror Hb) Mv M); constructor; exact L.
  - intros Z; apply (sums_zero _ _ S); constructor; assumption.
Qed.
Print Assumptions C188_zero.

(** the distance does not depend on which picture comes first *)
Theorem C188_symmetric (x y : image bits) xs ys r : wf x -> wf y -> Forall2 (fun b x => means b (Fin x)) (pix x) xs -> Forall2 (fun b x => means b (Fin x)) (pix y) ys ->
  dmanhattan x y r <-> dmanhattan y x r.
Proof.
  assert (half : forall (x y : image bits) xs ys, wf x -> wf y -> Forall2 (fun b x => means b (Fin x)) (pix x) xs -> Forall2 (fun b x => means b (Fin x)) (pix y) ys -> dmanhattan x y r -> dmanhattan y x r).
  { clear; intros x y xs ys Wx Wy Fx Fy; unfold dmanhattan, size_eqb; destruct (list_eq_dec Nat.eq_dec (dims x) (dims y)) as [E|E], (list_eq_dec Nat.eq_dec (dims y) (dims x)) as [E'|E']; try congruence; auto.
    intros (d & s & C & F & ->); unfold combined in C; rewrite E, size_eqb_same in C; destruct C as (p & Lp & Q & Np); injection Q as ->; cbn [pix] in F.
    exists (mkImage (dims y) p), s; split; [|auto]; unfold combined; rewrite E, size_eqb_same; exists p; split; [unfold wf in *; congruence|]; split; [reflexivity|].
    intros i a b Na Nb; destruct (Np i b a Nb Na) as (c & Nc & D); exists c; split; [exact Nc|].
    assert (M : forall l zs, Forall2 (fun b x => means b (Fin x)) l zs -> forall i b, nth_error l i = Some b -> exists z, means b (Fin z)).
    { clear; induction 1 as [|e z l zs M _ IH]; intros [|i] b H; try discriminate; [injection H as <-; eauto|eapply IH, H]. }
    destruct (M _ _ Fy i a Na) as [u Mu], (M _ _ Fx i b Nb) as [v Mv].
    apply (ddiff_fin _ _ _ _ _ Mu Mv); rewrite Rabs_minus_sym; apply (ddiff_fin _ _ _ _ _ Mv Mu), D. }
  intros Wx Wy Fx Fy; split; eapply half; eauto.
Qed.
Print Assumptions C188_symmetric.

(** a finite distance is within (n + 1) / 2^52 of the exact one, relatively *)
Lemma errors_sum es ts : Forall2 (fun e t => Rabs (t - e) <= u * t /\ 0 <= e)%R es ts -> (Rabs (rsum ts - rsum es) <= u * rsum ts /\ map Rabs es = es)%R.
Proof.
  induction 1 as [|e t es ts [H H0] F [IH E]]; cbn [rsum fold_right map]; [rewrite Rminus_0_r, Rabs_R0; split; [lra|reflexivity]|].
  fold (rsum es) (rsum ts); split; [|rewrite E, (Rabs_right e) by lra; reflexivity]; apply Rabs_le_inv in H, IH; apply Rabs_le; lra.
Qed.
Theorem C188_error (x y : image bits) xs ys s v : wf x -> wf y -> dims x = dims y -> Forall2 (fun b x => means b (Fin x)) (pix x) xs -> Forall2 (fun b x => means b (Fin x)) (pix y) ys ->
  Z.of_nat (length (pix x)) <= 2 ^ 52 -> dmanhattan x y (Ok s) -> means s (Fin v) ->
  let exact := fold_right Rplus 0%R (map (fun p => Rabs (fst p - snd p)) (combine xs ys)) in
  (Rabs (v - exact) <= IZR (Z.of_nat (length (pix x)) + 1) * powerRZ 2 (-52) * exact)%R.
Proof.
  intros Wx Wy E Fx Fy N D M exact; destruct (distance_inv _ _ _ Wx Wy E D) as (d & s' & Ld & Nd & Q & _ & S); injection Q as <-.
  destruct (differences (pix x) (pix y) d ltac:(unfold wf in *; congruence) Ld Nd xs ys Fx Fy) as (G1 & _ & G3).
  assert (Z0 : means 0 (Fin 0)) by (apply (bits_of_int_means 0); lia).
  assert (Fd : Forall2 (fun b x => means b (Fin x)) d (map value d)).
  { destruct (sums_up _ _ S) as [_ H]; [constructor; [right; exists 0%R; split; [exact Z0|lra]|exact G1]|]; rewrite Forall_forall in G1.
    assert (G : forall b, In b d -> means b (Fin (value b))).
    { intros b Hb; destruct (G1 b Hb) as [I|(w & Mw & _)]; [exfalso; apply (H b _ _ (or_intror Hb) I M); constructor|rewrite (value_means _ _ Mw); exact Mw]. }
    clear - G; induction d as [|b l IH]; constructor; [apply G; cbn; auto|apply IH; intros; apply G; cbn; auto]. }
  destruct (errors_sum _ _ (G3 _ Fd)) as [B Ab]; fold exact in B.
  pose proof (C186_sum (mkImage (dims x) d) (map value d) Fd) as C; cbn [pix] in C; rewrite Ld in C; specialize (C N s v S M); rewrite Ab in C.
  unfold rsum in B; fold exact in B; set (t := fold_right Rplus 0%R (map value d)) in *.
  assert (P52 : (powerRZ 2 (-52) = 2 * u)%R) by (change (-52) with (1 + -53); rewrite pw_add, powerRZ_1; reflexivity); rewrite P52 in *; destruct u_value as [U0 U1].
  rewrite plus_IZR; assert (K : (0 <= IZR (Z.of_nat (length (pix x))) <= IZR (2 ^ 52))%R) by (split; apply IZR_le; lia); set (k := IZR (Z.of_nat (length (pix x)))) in *.
  change (2 ^ 53) with (2 * 2 ^ 52) in U1; rewrite mult_IZR in U1; assert (KU : (0 <= k * u <= / 2)%R) by nra.
  apply Rabs_le_inv in B, C; assert (X : (0 <= exact)%R).
  { unfold exact; clear; induction (combine xs ys) as [|p l IH]; cbn [map fold_right]; [lra|]; pose proof (Rabs_pos (fst p - snd p)); lra. }
  assert (UX : (0 <= u * exact)%R) by (apply Rmult_le_pos; lra).
  assert (KT : (k * u * t <= k * u * exact + / 2 * (u * exact))%R).
  { assert (k * u * t <= k * u * (exact + u * exact))%R by (apply Rmult_le_compat_l; lra); assert (k * u * (u * exact) <= / 2 * (u * exact))%R by (apply Rmult_le_compat_r; lra); lra. }
  clearbody k t exact; apply Rabs_le; split; lra.
Qed.
Print Assumptions C188_error.

(** there is always a result; different extents and only they throw; a NaN or a pixel infinite on both sides with one sign makes it
    NaN, so that a picture with an infinite pixel is not at distance 0 from itself *)
Theorem C188_total (x y : image bits) : wf x -> wf y -> Forall pattern (pix x) -> Forall pattern (pix y) ->
  (exists r, dmanhattan x y r) /\ (forall r, dmanhattan x y r -> (r = Throw RuntimeError <-> dims x <> dims y) /\ (dims x = dims y -> exists s, r = Ok s)) /\
  (forall s i a b, dims x = dims y -> dmanhattan x y (Ok s) -> nth_error (pix x) i = Some a -> nth_error (pix y) i = Some b ->
     means a NaN \/ means b NaN \/ (exists t, means a (Inf t) /\ means b (Inf t)) -> means s NaN).
Proof.
  intros Wx Wy Px Py; split; [|split].
  - unfold dmanhattan, size_eqb; destruct (list_eq_dec Nat.eq_dec (dims x) (dims y)) as [E|E]; [|eauto].
    destruct (pointwise ddiff ddiff_total _ _ Px Py) as (p & Lp & Np).
    assert (Fp : Forall pattern p) by (eapply differences_pattern; [exact Lp| |exact Np]; unfold wf in *; congruence).
    destruct (dfold_total p 0 ltac:(unfold pattern; lia) Fp) as (s & F & _); exists (Ok s), (mkImage (dims x) p), s; split; [|auto].
    unfold combined; rewrite E, size_eqb_same; exists p; auto.
  - intros r D; unfold dmanhattan, size_eqb in D; destruct (list_eq_dec Nat.eq_dec (dims x) (dims y)) as [E|E].
    + destruct D as (d & s & _ & _ & ->); split; [split; [discriminate|congruence]|eauto].
    + split; [split; auto|congruence].
  - intros s i a b E D Na Nb H; destruct (distance_inv _ _ _ Wx Wy E D) as (d & s' & Ld & Nd & Q & _ & S); injection Q as <-.
    destruct (Nd i a b Na Nb) as (c & Nc & Dc); apply (sums_nan _ _ S c); [right; eapply nth_error_In, Nc|].
    assert (SN : forall p q, dsub p q c -> means p NaN \/ means q NaN \/ (exists t, means p (Inf t) /\ means q (Inf t)) -> means c NaN).
    { intros p q (v & w & Mv & Mw & R) [K|[K|(t & K & K')]].
      - rewrite (means_inj _ _ _ Mv K) in R; exact R.
      - rewrite (means_inj _ _ _ Mw K) in R; destruct v; exact R.
      - rewrite (means_inj _ _ _ Mv K), (means_inj _ _ _ Mw K') in R; destruct t; exact R. }
    unfold ddiff in Dc; destruct (dlt b a); [exact (SN _ _ Dc H)|apply (SN _ _ Dc)]; destruct H as [H|[H|(t & H & H')]]; eauto.
Qed.
Print Assumptions C188_total.
Theorem C188_self_refuted : exists x s, wf x /\ Forall pattern (pix x) /\ ~ In NaN (map meaning (pix x)) /\ dmanhattan x x (Ok s) /\ means s NaN.
Proof.
  pose (inf := 2047 * 2 ^ 52 : bits); assert (I : means inf (Inf false)) by (apply means_meaning; [unfold pattern, inf; lia|vm_compute; reflexivity]).
  pose (x := mkImage [1%nat] [inf]); assert (P : Forall pattern (pix x)) by (repeat constructor; unfold inf; lia).
  destruct (C188_total x x eq_refl eq_refl P P) as ((r & D) & H & N); destruct (H r D) as [_ H']; destruct (H' eq_refl) as [s ->].
  exists x, s; split; [reflexivity|]; split; [exact P|]; split; [|split; [exact D|]].
  - cbn [map pix x In]; apply means_meaning in I; [|unfold pattern, inf; lia]; intros [K|[]]; fold inf in K; congruence.
  - apply (N s 0%nat inf inf eq_refl D eq_refl eq_refl); eauto.
Qed.
Print Assumptions C188_self_refuted.
(** the triangle inequality can fail by a rounding: from -3 to 2^54 by way of 0 *)
Lemma distance_one a b k : (if dlt b a then finite_double a && finite_double b && nearest_is (key_units a - key_units b) 1 k else finite_double b && finite_double a && nearest_is (key_units b - key_units a) 1 k) = true ->
  finite_double 0 && finite_double (pat k) && nearest_is (key_units 0 + key_units (pat k)) 1 k = true -> dmanhattan (mkImage [1%nat] [a]) (mkImage [1%nat] [b]) (Ok (pat k)).
Proof.
  intros H1 H2; unfold dmanhattan; cbn [dims]; rewrite size_eqb_same; exists (mkImage [1%nat] [pat k]), (pat k); split; [|split; [|reflexivity]].
  - unfold combined; cbn [dims pix]; rewrite size_eqb_same; exists [pat k]; split; [reflexivity|]; split; [reflexivity|].
    intros [|[|i]] p q A B; try discriminate; injection A as <-; injection B as <-; exists (pat k); split; [reflexivity|]; unfold ddiff; destruct (dlt b a); apply dsub_literal, H1.
  - econstructor; [apply dadd_literal, H2|constructor].
Qed.
Theorem C188_triangle_refuted : exists x y z a b c u v w, wf x /\ wf y /\ wf z /\ dmanhattan x y (Ok a) /\ dmanhattan y z (Ok b) /\ dmanhattan x z (Ok c) /\
  means a (Fin u) /\ means b (Fin v) /\ means c (Fin w) /\ (u + v < w)%R.
Proof.
  pose (three := 4613937818241073152 : bits); pose (p54 := 1077 * 2 ^ 52 : bits).
  exists (mkImage [1%nat] [three + 2 ^ 63]), (mkImage [1%nat] [0]), (mkImage [1%nat] [p54]), (pat three), (pat p54), (pat (p54 + 1)).
  eexists; eexists; eexists; do 3 (split; [reflexivity|]); split; [apply distance_one; vm_compute; reflexivity|]; split; [apply distance_one; vm_compute; reflexivity|].
  split; [|split; [apply finite_double_means; vm_compute; reflexivity|split; [apply finite_double_means; vm_compute; reflexivity|split; [apply finite_double_means; vm_compute; reflexivity|]]]].
  { apply distance_one; vm_compute; reflexivity. }
  { rewrite <- Rmult_plus_distr_r, <- plus_IZR; apply Rmult_lt_compat_r; [apply unit_pos|apply IZR_lt; vm_compute; reflexivity]. }
Qed.
Print Assumptions C188_triangle_refuted.
(** two pictures meet the hypotheses and have a distance that is not 0 *)
Example C188_case : let x := mkImage [2%nat] [nine_tenths; p53] in let y := mkImage [2%nat] [nine_tenths + 1; p53] in
  exists xs ys s, wf x /\ wf y /\ dims x = dims y /\ Forall2 (fun b x => means b (Fin x)) (pix x) xs /\ Forall2 (fun b x => means b (Fin x)) (pix y) ys /\ dmanhattan x y (Ok s) /\ ~ means s (Fin 0).
Proof.
  intros x y; pose (v := fun b => (IZR (key_units b) * unit_)%R).
  assert (Fx : Forall2 (fun b x => means b (Fin x)) (pix x) (map v (pix x))) by (repeat constructor; apply finite_double_means; vm_compute; reflexivity).
  assert (Fy : Forall2 (fun b x => means b (Fin x)) (pix y) (map v (pix y))) by (repeat constructor; apply finite_double_means; vm_compute; reflexivity).
  destruct (C188_total x y eq_refl eq_refl) as ((r & D) & H & _); [repeat constructor; vm_compute; congruence|repeat constructor; vm_compute; congruence|].
  destruct (C188_zero x y _ _ r eq_refl eq_refl eq_refl Fx Fy D) as (s & -> & _ & Z); exists (map v (pix x)), (map v (pix y)), s; repeat (split; [first [reflexivity|assumption]|]).
  rewrite Z; cbn [map pix x y]; intros Q; injection Q as Q; apply Rmult_eq_reg_r in Q; [|apply Rgt_not_eq, unit_pos]; apply eq_IZR in Q; vm_compute in Q; discriminate.
Qed.
