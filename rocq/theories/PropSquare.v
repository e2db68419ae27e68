(** PropSquare.v - property C189: squared_euclidean_distance and euclidean_distance of ranges of doubles when every operation rounds.
    The specification uses real numbers only. *)
From Coq Require Import ZArith Reals Bool List Lia Lra Psatz Permutation ZifyBool.
From Verif Require Import Base ImageModel FloatModel FloatProofs RoundModel RoundProofs PropRound HueModel PropHue PropSumError NormModel PropNorm DistModel PropDist SquareModel.
Import ListNotations.
Open Scope Z_scope.

(** ** the other sign *)
Definition flip (b : bits) : bits := if b <? 2 ^ 63 then b + 2 ^ 63 else b - 2 ^ 63.
Lemma fields_flip b s e f : fields b s e f -> fields (flip b) (negb s) e f.
Proof.
  unfold fields, flip; change (2 ^ 11) with 2048; change (2 ^ 63) with 9223372036854775808; change (2 ^ 52) with 4503599627370496; intros (-> & E & F).
  destruct s; cbn [negb]; (destruct (_ <? _) eqn:L; repeat split; lia).
Qed.
Lemma signed_negb s r : signed_by (negb s) r = (- signed_by s r)%R.
Proof. destruct s; cbn [negb signed_by]; ring. Qed.
Lemma means_flip b v : means b v -> means (flip b) (opp_number v).
Proof.
  intros M; inversion M as [s f F N|s F|s f F|s e f F E]; subst; apply fields_flip in F; cbn [opp_number].
  - eapply means_nan; eauto.
  - eapply means_inf; eauto.
  - rewrite <- signed_negb; apply means_small; exact F.
  - rewrite <- signed_negb; apply means_normal; assumption.
Qed.
Lemma flip_even b : Z.even (flip b) = Z.even b.
Proof. unfold flip; destruct (b <? 2 ^ 63); [rewrite Z.even_add|rewrite Z.even_sub]; change (Z.even (2 ^ 63)) with true; destruct (Z.even b); reflexivity. Qed.
Lemma too_large_pos : (0 < too_large)%R.
Proof. destruct (int_double 0 ltac:(lia)) as [b M]; apply means_not_large in M; rewrite Rabs_R0 in M; exact M. Qed.
Lemma rounds_flip x b : rounds x b -> rounds (- x) (flip b).
Proof.
  unfold rounds; rewrite Rabs_Ropp; destruct (Rlt_dec (Rabs x) too_large) as [S|S].
  - intros (r & M & H); exists (- r)%R; split; [exact (means_flip _ _ M)|]; intros b' r' M'; destruct (H _ _ (means_flip _ _ M')) as [H1 H2].
    replace (- x - - r)%R with (- (x - r))%R by ring; replace (- x - r')%R with (- (x - - r'))%R by ring; rewrite !Rabs_Ropp, flip_even; split; [exact H1|].
    intros E N; apply H2; [exact E|lra].
  - intros M; pose proof too_large_pos as T; apply means_flip in M; cbn [opp_number] in M.
    assert (X : x <> 0%R) by (intros ->; apply S; rewrite Rabs_R0; exact T).
    destruct (Rlt_dec x 0), (Rlt_dec (- x) 0); try lra; exact M.
Qed.
Lemma dsub_flip a b d : dsub a b d -> dsub b a (flip d).
Proof.
  intros (v & w & Mv & Mw & R); exists w, v; split; [exact Mw|]; split; [exact Mv|].
  destruct v as [|[]|x], w as [|[]|y]; cbn [plus_number opp_number rounded negb Bool.eqb] in *; try (apply means_flip in R; exact R).
  apply rounds_flip in R; replace (y + - x)%R with (- (x + - y))%R by ring; exact R.
Qed.
Lemma dsquare_flip d q : dsquare d q -> dsquare (flip d) q.
Proof.
  intros (v & M & R); exists (opp_number v); split; [apply means_flip, M|]; destruct v; cbn [opp_number square_number rounded] in *; auto.
  replace (- r * - r)%R with (r * r)%R by ring; exact R.
Qed.
Lemma dsquares_flip s l m r : dsquares s l m r -> dsquares s m l r.
Proof.
  induction 1 as [s|s a l|s b m|s a l b m d q t r D Q A _ IH]; [constructor|constructor|constructor|].
  eapply dsquares_next; [apply dsub_flip, D|apply dsquare_flip, Q|exact A|exact IH].
Qed.
(** the products, and their sum from the left *)
Lemma dsquares_inv s l m r : dsquares s l m r -> (length l = length m /\ exists qs v, r = Ok v /\ dfold s qs v /\ length qs = length l /\
    forall i a b, nth_error l i = Some a -> nth_error m i = Some b -> exists d q, nth_error qs i = Some q /\ dsub a b d /\ dsquare d q)
  \/ (length l <> length m /\ r = Throw RuntimeError).
Proof.
  induction 1 as [s|s a l|s b m|s a l b m d q t r D Q A _ [(L & qs & v & -> & F & Lq & N)|(L & ->)]]; cbn [length].
  - left; split; [reflexivity|]; exists [], s; repeat split; [constructor|]; intros [|i] ? ? K; discriminate.
  - right; split; [discriminate|reflexivity].
  - right; split; [discriminate|reflexivity].
  - left; split; [congruence|]; exists (q :: qs), v; split; [reflexivity|]; split; [econstructor; eauto|]; split; [cbn [length]; congruence|].
    intros [|i] a' b' Na Nb; [injection Na as <-; injection Nb as <-; exists d, q; auto|exact (N i a' b' Na Nb)].
  - right; split; [congruence|reflexivity].
Qed.
Lemma dsquare_pattern a c : dsquare a c -> pattern c.
Proof. intros (v & _ & R); eapply rounded_pattern, R. Qed.
Lemma dsquares_total : forall l m s, Forall pattern l -> Forall pattern m -> pattern s -> exists r, dsquares s l m r.
Proof.
  induction l as [|a l IH]; intros [|b m] s Fl Fm P; try (eexists; constructor; fail).
  inversion Fl as [|? ? Pa Fl']; inversion Fm as [|? ? Pb Fm']; subst; destruct (dsub_total a b Pa Pb) as [d D].
  assert (Pd : pattern d) by (destruct D as (v & w & _ & _ & R); eapply rounded_pattern, R).
  destruct (rounded_total (square_number (meaning d))) as [q Q]; assert (Qd : dsquare d q) by (exists (meaning d); split; [apply has_meaning, Pd|exact Q]).
  destruct (C184_addition s q P (dsquare_pattern _ _ Qd)) as ((t & T) & _); destruct (IH m t Fl' Fm' (dadd_pattern _ _ _ T)) as [r R]; exists r; econstructor; eauto.
Qed.

(** ** one product *)
Lemma square_not_negative x q : rounds (x * x) q -> not_negative q.
Proof.
  intros R; pose proof R as R'; destruct (int_double 0 ltac:(lia)) as [b0 M0]; assert (P : (0 <= x * x)%R) by nra; unfold rounds in R'; destruct (Rlt_dec _ _) as [S|S].
  - destruct R' as (r & Mr & _); right; exists r; split; [exact Mr|]; eapply (rounds_above _ _ _ _ _ M0); [|exact R|exact Mr]; exact P.
  - destruct (Rlt_dec (x * x) 0); [lra|left; exact R'].
Qed.
Lemma small_double s : exists b, means b (Fin (signed_by s (powerRZ 2 (-537)))).
Proof.
  assert (E : (IZR (2 ^ 537) * unit_ = powerRZ 2 (-537))%R) by (rewrite IZR_pow2 by lia; unfold unit_; rewrite <- pw_add; reflexivity).
  destruct s; cbn [signed_by]; [exists (486 * 2 ^ 52 + 2 ^ 63)|exists (486 * 2 ^ 52)]; (apply literal_fin; [vm_compute; reflexivity|]).
  - replace (key_units (486 * 2 ^ 52 + 2 ^ 63)) with (- 2 ^ 537) by (vm_compute; reflexivity); rewrite opp_IZR, <- E; ring.
  - replace (key_units (486 * 2 ^ 52)) with (2 ^ 537) by (vm_compute; reflexivity); exact E.
Qed.
Lemma product_pixel a b d q x y : means a (Fin x) -> means b (Fin y) -> dsub a b d -> dsquare d q ->
  not_negative q /\ (x = y -> means q (Fin 0)) /\ ((powerRZ 2 (-537) <= Rabs (x - y))%R -> ~ means q (Fin 0)).
Proof.
  intros Ma Mb D (v & Mv & Q); apply (dsub_fin _ _ _ _ _ Ma Mb) in D; destruct (int_double 0 ltac:(lia)) as [b0 M0].
  destruct (Rlt_dec (Rabs (x - y)) too_large) as [S|S].
  - destruct (rounds_fin _ _ S D) as (z & Mz & _); rewrite (means_inj _ _ _ Mv Mz) in Q; cbn [square_number rounded] in Q.
    split; [exact (square_not_negative _ _ Q)|]; split.
    + intros ->; rewrite Rminus_diag_eq in D by reflexivity; apply (rounds_exact _ _ _ M0) in D; pose proof (means_inj _ _ _ D Mz) as E; injection E as <-.
      rewrite Rmult_0_l in Q; apply (rounds_exact _ _ _ M0) in Q; exact Q.
    + intros B M; destruct (small_double false) as [p Mp], (small_double true) as [n Mn]; cbn [signed_by] in Mp, Mn; pose proof (pw_pos (-537)) as P.
      assert (Z : (powerRZ 2 (-537) <= z \/ z <= - powerRZ 2 (-537))%R).
      { destruct (Rle_lt_dec 0 (x - y)) as [L|L]; [left; rewrite Rabs_right in B by lra; apply (rounds_above _ _ _ _ _ Mp B D Mz)|right; rewrite Rabs_left in B by lra].
        eapply (rounds_below _ _ _ _ _ Mn); [|exact D|exact Mz]; lra. }
      assert (ZZ : (unit_ <= z * z)%R) by (replace unit_ with (powerRZ 2 (-537) * powerRZ 2 (-537))%R by (rewrite <- pw_add; reflexivity); clear - Z P; destruct Z; nra).
      destruct unit_double as [bu Mu]; pose proof (rounds_above _ _ _ _ _ Mu ZZ Q M); pose proof unit_pos; lra.
  - unfold rounds in D; destruct (Rlt_dec (Rabs (x - y)) too_large); [contradiction|]; rewrite (means_inj _ _ _ Mv D) in Q; cbn [square_number rounded] in Q.
    split; [left; exact Q|]; split.
    + intros ->; exfalso; apply S; rewrite Rminus_diag_eq, Rabs_R0 by reflexivity; apply too_large_pos.
    + intros _ M; pose proof (means_inj _ _ _ Q M); discriminate.
Qed.
Lemma products lx ly qs : length ly = length lx -> length qs = length lx ->
  (forall i a b, nth_error lx i = Some a -> nth_error ly i = Some b -> exists d q, nth_error qs i = Some q /\ dsub a b d /\ dsquare d q) ->
  forall xs ys, Forall2 (fun b x => means b (Fin x)) lx xs -> Forall2 (fun b x => means b (Fin x)) ly ys ->
  Forall not_negative qs /\ (xs = ys -> Forall (fun b => means b (Fin 0)) qs) /\
  (Forall2 (fun x y => x = y \/ (powerRZ 2 (-537) <= Rabs (x - y))%R) xs ys -> Forall (fun b => means b (Fin 0)) qs -> xs = ys).
Proof.
  revert ly qs; induction lx as [|a lx IH]; intros [|b ly] [|c qs] L1 L2 N xs ys Fx Fy; try discriminate.
  - inversion Fx; inversion Fy; subst; split; [constructor|]; split; [constructor|reflexivity].
  - inversion Fx as [|? x ? xs' Mx Fx']; inversion Fy as [|? y ? ys' My Fy']; subst.
    destruct (N 0%nat a b eq_refl eq_refl) as (d & c' & Q & D & SQ); injection Q as <-.
    destruct (IH ly qs) with (xs := xs') (ys := ys') as (I1 & I2 & I3); auto; [intros i; exact (N (S i))|].
    destruct (product_pixel _ _ _ _ _ _ Mx My D SQ) as (D1 & D2 & D3); split; [constructor; auto|]; split.
    + intros H; injection H as -> ->; constructor; auto.
    + intros H Z; inversion H as [|? ? ? ? H1 H2]; inversion Z as [|? ? Z1 Z2]; subst; f_equal; [|auto]; destruct H1 as [H1|H1]; [exact H1|]; destruct (D3 H1 Z1).
Qed.

(** ** C189 *)
Lemma root_zero s c : not_negative s -> dsqrt s c -> not_negative c /\ (means s (Fin 0) <-> means c (Fin 0)).
Proof.
  intros N (v & Mv & R); destruct (int_double 0 ltac:(lia)) as [b0 M0]; destruct N as [I|(x & Mx & X)].
  - rewrite (means_inj _ _ _ Mv I) in R; cbn in R; split; [left; exact R|]; split; intros M; [pose proof (means_inj _ _ _ I M)|pose proof (means_inj _ _ _ R M)]; discriminate.
  - rewrite (means_inj _ _ _ Mv Mx) in R; cbn [root_number] in R; destruct (Rlt_dec x 0); [lra|]; cbn [rounded] in R; pose proof (sqrt_pos x) as P; split.
    + pose proof R as R'; unfold rounds in R'; destruct (Rlt_dec _ _) as [S|S].
      * destruct R' as (r & Mr & _); right; exists r; split; [exact Mr|]; eapply (rounds_above _ _ _ _ _ M0); [|exact R|exact Mr]; exact P.
      * destruct (Rlt_dec (sqrt x) 0); [lra|left; exact R'].
    + split.
      * intros M; pose proof (means_inj _ _ _ M Mx) as E; injection E as <-; rewrite sqrt_0 in R; apply (rounds_exact _ _ _ M0) in R; exact R.
      * intros M; destruct (Rle_lt_or_eq_dec _ _ X) as [L|<-]; [exfalso|exact Mx]; pose proof (difference_pos _ _ _ _ M0 Mx L) as D; rewrite Rminus_0_r in D.
        destruct (small_double false) as [p Mp]; cbn [signed_by] in Mp; pose proof (pw_pos (-537)) as P5.
        assert (B : (powerRZ 2 (-537) <= sqrt x)%R).
        { rewrite <- (sqrt_square (powerRZ 2 (-537))) by lra; apply sqrt_le_1_alt; rewrite <- pw_add; exact D. }
        pose proof (rounds_above _ _ _ _ _ Mp B R M); lra.
Qed.
(** for finite numbers the squared distance is a number that is not negative or positive infinity, and 0 for equal ranges; where two
    numbers that differ differ by at least 2^-537, it is 0 for equal ranges only.  The distance, its root, is never negative
    and 0 exactly if the squared distance is *)
Theorem C189_zero (l m : list bits) xs ys r : length l = length m -> Forall2 (fun b x => means b (Fin x)) l xs -> Forall2 (fun b x => means b (Fin x)) m ys -> dsquared_distance l m r ->
  exists s, r = Ok s /\ (means s (Inf false) \/ exists v, means s (Fin v) /\ (0 <= v)%R) /\ (xs = ys -> means s (Fin 0)) /\
    (Forall2 (fun x y => x = y \/ (powerRZ 2 (-537) <= Rabs (x - y))%R) xs ys -> means s (Fin 0) -> xs = ys) /\
    forall c, dsqrt s c -> (means c (Inf false) \/ exists v, means c (Fin v) /\ (0 <= v)%R) /\ (means c (Fin 0) <-> means s (Fin 0)).
Proof.
  intros L Fx Fy D; destruct (dsquares_inv _ _ _ _ D) as [(_ & qs & s & -> & F & Lq & N)|(K & _)]; [|contradiction].
  assert (Z0 : means 0 (Fin 0)) by (apply (bits_of_int_means 0); lia).
  pose proof (dfold_sums _ _ _ F [0] (sums_one 0)) as S; cbn [app] in S.
  destruct (products l m qs (eq_sym L) Lq N xs ys Fx Fy) as (G1 & G2 & G3).
  destruct (sums_up _ _ S) as [P H]; [constructor; [right; exists 0%R; split; [exact Z0|lra]|exact G1]|].
  assert (E0 : xs = ys -> means s (Fin 0)) by (intros E; apply (sums_zero _ _ S); constructor; auto).
  exists s; split; [reflexivity|]; split; [exact P|]; split; [exact E0|]; split.
  - intros B M; apply (G3 B); apply Forall_forall; intros b Hb; rewrite Forall_forall in G1; destruct (G1 b Hb) as [I|(v & Mv & V)].
    + exfalso; apply (H b _ _ (or_intror Hb) I M); constructor.
    + destruct (Rle_lt_or_eq_dec _ _ V) as [K|<-]; [|exact Mv]; exfalso; apply (H b _ _ (or_intror Hb) Mv M); constructor; exact K.
  - intros c C; destruct (root_zero _ _ P C) as [R1 R2]; split; [exact R1|tauto].
Qed.
Print Assumptions C189_zero.
(** there is always a result; ranges of different lengths throw, and only they; the order of the two ranges does not matter *)
Theorem C189_total (l m : list bits) : Forall pattern l -> Forall pattern m ->
  (exists r, dsquared_distance l m r) /\ (exists r, ddistance l m r) /\
  (forall r, dsquared_distance l m r \/ ddistance l m r -> (length l <> length m <-> r = Throw RuntimeError) /\ (length l = length m -> exists s, r = Ok s)) /\
  (forall r, dsquared_distance l m r <-> dsquared_distance m l r) /\ (forall r, ddistance l m r <-> ddistance m l r).
Proof.
  intros Fl Fm; destruct (dsquares_total l m 0 Fl Fm ltac:(unfold pattern; lia)) as [r D].
  assert (A : forall r, dsquared_distance l m r -> (length l <> length m <-> r = Throw RuntimeError) /\ (length l = length m -> exists s, r = Ok s)).
  { intros q Q; destruct (dsquares_inv _ _ _ _ Q) as [(L & qs & s & -> & _)|(L & ->)]; [split; [split; [intros K; destruct (K L)|discriminate]|eauto]|split; [split; [reflexivity|intros _; exact L]|intros K; destruct (L K)]]. }
  assert (B : forall l m r, dsquared_distance l m r <-> dsquared_distance m l r) by (intros; split; apply dsquares_flip).
  split; [exists r; exact D|]; split; [|split; [|split; [apply B|]]].
  - destruct (dsquares_inv _ _ _ _ D) as [(L & qs & s & -> & F & Lq & N)|(L & ->)]; [|exists (Throw RuntimeError), (Throw RuntimeError); auto].
    assert (P : pattern s).
    { assert (Q : forall s q v, dfold s q v -> pattern s -> pattern v) by (induction 1 as [|? ? ? ? ? A1 _ IH]; auto; intros _; apply IH; eapply dadd_pattern, A1).
      apply (Q _ _ _ F); unfold pattern; lia. }
    destruct (rounded_total (root_number (meaning s))) as [c C]; exists (Ok c), (Ok s); split; [exact D|]; exists c; split; [|reflexivity]; exists (meaning s); split; [apply has_meaning, P|exact C].
  - intros q [Q|(p & P & Q)]; [exact (A q Q)|]; destruct (A p P) as [A1 A2]; destruct (Nat.eq_dec (length l) (length m)) as [E|E].
    + destruct (A2 E) as [s ->]; destruct Q as (c & _ & ->); split; [split; [intros K; destruct (K E)|discriminate]|eauto].
    + pose proof (proj1 A1 E); subst p; subst q; split; [split; [reflexivity|intros _; exact E]|intros K; destruct (E K)].
  - intros q; split; intros (p & P & Q); exists p; (split; [apply B, P|exact Q]).
Qed.
Print Assumptions C189_total.
(** for whole numbers whose squared distance is at most 2^53 it is exact *)
Theorem C189_exact (l m : list bits) xs ys s : Forall2 (fun b z => means b (Fin (IZR z))) l xs -> Forall2 (fun b z => means b (Fin (IZR z))) m ys ->
  fold_right Z.add 0 (map (fun p => (fst p - snd p) * (fst p - snd p)) (combine xs ys)) <= 2 ^ 53 -> dsquared_distance l m (Ok s) ->
  means s (Fin (IZR (fold_right Z.add 0 (map (fun p => (fst p - snd p) * (fst p - snd p)) (combine xs ys))))).
Proof.
  assert (G : forall k l m r, dsquares k l m r -> forall s xs ys z, r = Ok s -> means k (Fin (IZR z)) -> 0 <= z -> Forall2 (fun b z => means b (Fin (IZR z))) l xs -> Forall2 (fun b z => means b (Fin (IZR z))) m ys ->
    z + fold_right Z.add 0 (map (fun p => (fst p - snd p) * (fst p - snd p)) (combine xs ys)) <= 2 ^ 53 ->
    means s (Fin (IZR (z + fold_right Z.add 0 (map (fun p => (fst p - snd p) * (fst p - snd p)) (combine xs ys)))))).
  { clear; induction 1 as [k|k a l|k b m|k a l b m d q t r D Q A R IH]; intros s xs ys z E Mk Z0 Fl Fm B; try discriminate.
    - injection E as <-; inversion Fl; subst; cbn [combine map fold_right]; rewrite Z.add_0_r; exact Mk.
    - inversion Fl as [|? x ? xs' Mx Fl']; inversion Fm as [|? y ? ys' My Fm']; subst; cbn [combine map fold_right fst snd] in *.
      assert (P : forall l, 0 <= fold_right Z.add 0 (map (fun p : Z * Z => (fst p - snd p) * (fst p - snd p)) l)) by (clear; induction l as [|p l IH]; cbn [map fold_right]; [lia|]; pose proof (Z.square_nonneg (fst p - snd p)); lia).
      specialize (P (combine xs' ys')); set (f := fold_right Z.add 0 (map (fun p : Z * Z => (fst p - snd p) * (fst p - snd p)) (combine xs' ys'))) in *.
      assert (S0 : 0 <= (x - y) * (x - y) <= 2 ^ 53) by (pose proof (Z.square_nonneg (x - y)); lia).
      assert (Md : whole d (x - y)) by (eapply dsub_whole; eauto; clear - S0; set (w := x - y) in *; clearbody w; nia).
      assert (Mq : whole q ((x - y) * (x - y))).
      { destruct Q as (v & Mv & Q); rewrite (means_inj _ _ _ Mv Md) in Q; cbn [square_number rounded] in Q; rewrite <- mult_IZR in Q.
        destruct (int_double ((x - y) * (x - y)) ltac:(lia)) as [e Me]; apply (rounds_exact _ _ _ Me) in Q; exact Q. }
      assert (Mt : whole t (z + (x - y) * (x - y))) by (eapply dadd_whole; eauto; lia).
      replace (z + ((x - y) * (x - y) + f)) with (z + (x - y) * (x - y) + f) by ring; apply IH; auto; lia. }
  intros Fl Fm B D; apply (G 0 l m (Ok s) D s xs ys 0 eq_refl); auto; try lia; apply (bits_of_int_means 0); lia.
Qed.
Print Assumptions C189_exact.
(** and the distance is the root to half a unit in the last place, and exact if the squared distance is the square of a whole number *)
Theorem C189_root (l m : list bits) xs ys c : Forall2 (fun b z => means b (Fin (IZR z))) l xs -> Forall2 (fun b z => means b (Fin (IZR z))) m ys ->
  let exact := fold_right Z.add 0 (map (fun p => (fst p - snd p) * (fst p - snd p)) (combine xs ys)) in
  exact <= 2 ^ 53 -> ddistance l m (Ok c) ->
  exists w, means c (Fin w) /\ (Rabs (w - sqrt (IZR exact)) <= powerRZ 2 (-53) * sqrt (IZR exact) + powerRZ 2 (-1074))%R /\ forall k, 0 <= k -> exact = k * k -> w = IZR k.
Proof.
  intros Fl Fm exact B (p & P & Q).
  destruct p as [s|e|]; try discriminate; destruct Q as (c' & (v & Mv & R) & Q); injection Q as <-.
  pose proof (C189_exact l m xs ys s Fl Fm B P) as Ms; fold exact in Ms; rewrite (means_inj _ _ _ Mv Ms) in R.
  assert (E0 : 0 <= exact) by (unfold exact; clear; induction (combine xs ys) as [|p l IH]; cbn [map fold_right]; [lia|]; pose proof (Z.square_nonneg (fst p - snd p)); lia).
  clearbody exact; cbn [root_number] in R; destruct (Rlt_dec (IZR exact) 0) as [N|N]; [apply (lt_IZR exact 0) in N; lia|]; cbn [rounded] in R; pose proof (sqrt_pos (IZR exact)) as SP.
  assert (F : (Rabs (sqrt (IZR exact)) < too_large)%R).
  { rewrite Rabs_right by lra; destruct (int_double exact ltac:(lia)) as [b Mb]; apply means_not_large in Mb; rewrite Rabs_right in Mb by lra.
    eapply Rle_lt_trans; [|exact Mb]; destruct (Z.eq_dec exact 0) as [->|K]; [rewrite sqrt_0; lra|].
    assert (1 <= IZR exact)%R by (apply (IZR_le 1); lia); rewrite <- (sqrt_square (IZR exact)) at 2 by lra; apply sqrt_le_1_alt; nra. }
  destruct (rounds_fin _ _ F R) as (w & Mw & _); exists w; split; [exact Mw|]; split.
  - pose proof (round_error _ _ _ R Mw) as H; rewrite (Rabs_right (sqrt (IZR exact))) in H by lra; rewrite Rabs_minus_sym; exact H.
  - intros k K E; subst exact; rewrite mult_IZR, sqrt_square in R by (apply IZR_le; lia).
    destruct (int_double k ltac:(nia)) as [b Mb]; apply (rounds_exact _ _ _ Mb) in R; pose proof (means_inj _ _ _ R Mw) as Q; injection Q as <-; reflexivity.
Qed.
Print Assumptions C189_root.
(** a finite squared distance of finite numbers is within (n + 4) / 2^52 of the exact one, relatively, plus twice the smallest double for
    each of the n squares *)
Lemma product_error a b d q x y e : means a (Fin x) -> means b (Fin y) -> dsub a b d -> dsquare d q -> means q (Fin e) ->
  (Rabs ((x - y) * (x - y) - e) <= (301 / 100) * u * ((x - y) * (x - y)) + unit_)%R.
Proof.
  intros Ma Mb D (v & Mv & Q) Mq; apply (dsub_fin _ _ _ _ _ Ma Mb) in D.
  assert (Z : exists z, means d (Fin z)).
  { unfold rounds in D; destruct (Rlt_dec _ _); [destruct D as (z & Mz & _); eauto|]; rewrite (means_inj _ _ _ Mv D) in Q; cbn [square_number rounded] in Q; pose proof (means_inj _ _ _ Q Mq); discriminate. }
  destruct Z as [z Mz]; rewrite (means_inj _ _ _ Mv Mz) in Q; cbn [square_number rounded] in Q.
  pose proof (sub_error _ _ _ _ _ _ Ma Mb D Mz) as E1; pose proof (round_error _ _ _ Q Mq) as E2; rewrite (Rabs_right (z * z)) in E2 by nra.
  destruct u_value as [U0 U1]; change (2 ^ 53) with 9007199254740992 in U1; assert (U : (u <= / 1000)%R) by lra; clear - E1 E2 U0 U.
  set (t := (x - y)%R) in *; set (w := unit_) in *; clearbody t w; generalize dependent u; intros k; intros.
  apply Rabs_le_inv in E2; assert (T : (0 <= t * t)%R) by nra; assert (TA : (Rabs t * Rabs t = t * t)%R) by (rewrite <- Rabs_mult; apply Rabs_right; lra); pose proof (Rabs_pos t) as P.
  assert (ZT : (Rabs (z * z - t * t) <= (2 * k + k * k) * (t * t))%R).
  { replace (z * z - t * t)%R with ((z - t) * (z + t))%R by ring; rewrite Rabs_mult; rewrite Rabs_minus_sym in E1.
    assert (S : (Rabs (z + t) <= (2 + k) * Rabs t)%R) by (replace (z + t)%R with ((z - t) + (t + t))%R by ring; eapply Rle_trans; [apply Rabs_triang|]; pose proof (Rabs_triang t t); lra).
    pose proof (Rabs_pos (z - t)); pose proof (Rabs_pos (z + t)); eapply Rle_trans; [apply Rmult_le_compat; eauto|]; rewrite <- TA; right; ring. }
  apply Rabs_le_inv in ZT; assert (K2 : (k * k <= / 1000 * k)%R) by nra.
  assert (KT : (0 <= k * (t * t))%R) by (apply Rmult_le_pos; lra).
  assert (A1 : (k * k * (t * t) <= / 1000 * (k * (t * t)))%R) by nra.
  assert (A2 : (k * (z * z) <= k * (t * t) + k * ((2 * k + k * k) * (t * t)))%R) by nra.
  assert (A3 : (k * ((2 * k + k * k) * (t * t)) <= 3 / 1000 * (k * (t * t)))%R) by nra.
  apply Rabs_le; split; lra.
Qed.
Lemma products_error lx ly qs : length ly = length lx -> length qs = length lx ->
  (forall i a b, nth_error lx i = Some a -> nth_error ly i = Some b -> exists d q, nth_error qs i = Some q /\ dsub a b d /\ dsquare d q) ->
  forall xs ys es, Forall2 (fun b x => means b (Fin x)) lx xs -> Forall2 (fun b x => means b (Fin x)) ly ys -> Forall2 (fun b x => means b (Fin x)) qs es ->
  let exact := fold_right Rplus 0%R (map (fun p => (fst p - snd p) * (fst p - snd p))%R (combine xs ys)) in
  (0 <= exact /\ Rabs (exact - rsum es) <= (301 / 100) * u * exact + INR (length lx) * unit_)%R.
Proof.
  revert ly qs; induction lx as [|a lx IH]; intros [|b ly] [|c qs] L1 L2 N xs ys es Fx Fy Fe; try discriminate.
  - inversion Fx; inversion Fy; inversion Fe; subst; cbn; rewrite Rminus_0_r, Rabs_R0; lra.
  - inversion Fx as [|? x ? xs' Mx Fx']; inversion Fy as [|? y ? ys' My Fy']; inversion Fe as [|? e ? es' Me Fe']; subst.
    destruct (N 0%nat a b eq_refl eq_refl) as (d & c' & Q & D & SQ); injection Q as <-.
    destruct (IH ly qs) with (xs := xs') (ys := ys') (es := es') as (I1 & I2); auto; [intros i; exact (N (S i))|].
    pose proof (product_error _ _ _ _ _ _ _ Mx My D SQ Me) as E; cbn [combine map fold_right fst snd rsum]; cbv zeta; fold (rsum es').
    set (f := fold_right Rplus 0%R (map (fun p => (fst p - snd p) * (fst p - snd p))%R (combine xs' ys'))) in *; cbn [length]; rewrite S_INR.
    pose proof (Rle_0_sqr (x - y)) as T; unfold Rsqr in T; set (t := ((x - y) * (x - y))%R) in *; clearbody t f; split; [lra|].
    apply Rabs_le_inv in E, I2; apply Rabs_le; lra.
Qed.
Theorem C189_error (l m : list bits) xs ys s v : Forall2 (fun b x => means b (Fin x)) l xs -> Forall2 (fun b x => means b (Fin x)) m ys -> Z.of_nat (length l) <= 2 ^ 52 ->
  dsquared_distance l m (Ok s) -> means s (Fin v) ->
  let exact := fold_right Rplus 0%R (map (fun p => (fst p - snd p) * (fst p - snd p))%R (combine xs ys)) in
  (Rabs (v - exact) <= (INR (length l) + 4) * powerRZ 2 (-52) * exact + INR (length l) * powerRZ 2 (-1073))%R.
Proof.
  intros Fx Fy N D M exact; destruct (dsquares_inv _ _ _ _ D) as [(L & qs & s' & Q & F & Lq & H)|(_ & K)]; [injection Q as <-|discriminate].
  assert (Z0 : means 0 (Fin 0)) by (apply (bits_of_int_means 0); lia).
  pose proof (dfold_sums _ _ _ F [0] (sums_one 0)) as S; cbn [app] in S.
  destruct (products l m qs (eq_sym L) Lq H xs ys Fx Fy) as (G1 & _ & _).
  assert (Fd : Forall2 (fun b x => means b (Fin x)) qs (map value qs) /\ map Rabs (map value qs) = map value qs).
  { destruct (sums_up _ _ S) as [_ B]; [constructor; [right; exists 0%R; split; [exact Z0|lra]|exact G1]|]; rewrite Forall_forall in G1.
    assert (G : forall b, In b qs -> means b (Fin (value b)) /\ (0 <= value b)%R).
    { intros b Hb; destruct (G1 b Hb) as [I|(w & Mw & W)]; [exfalso; apply (B b _ _ (or_intror Hb) I M); constructor|rewrite (value_means _ _ Mw); auto]. }
    clear - G; induction qs as [|b k IH]; [split; constructor|]; destruct IH as [IH1 IH2]; [intros; apply G; cbn; auto|].
    split; [constructor; [apply G; cbn; auto|exact IH1]|]; cbn [map]; rewrite IH2, Rabs_right; [reflexivity|]; apply Rle_ge, G; cbn; auto. }
  destruct Fd as [Fd Ab]; destruct (products_error l m qs (eq_sym L) Lq H xs ys _ Fx Fy Fd) as [X B]; fold exact in X, B.
  pose proof (C186_sum (mkImage [] qs) (map value qs) Fd) as C; cbn [pix] in C; rewrite Lq in C; specialize (C N s v S M); rewrite Ab in C.
  fold (rsum (map value qs)) in C; set (t := rsum (map value qs)) in *; rewrite <- INR_IZR_INZ in C.
  assert (P52 : (powerRZ 2 (-52) = 2 * u)%R) by (change (-52) with (1 + -53); rewrite pw_add, powerRZ_1; reflexivity).
  assert (P1 : (powerRZ 2 (-1073) = 2 * unit_)%R) by (change (-1073) with (1 + -1074); rewrite pw_add, powerRZ_1; reflexivity).
  rewrite P52, P1 in *; destruct u_value as [U0 U1]; pose proof unit_pos as W.
  assert (K : (0 <= INR (length l) <= IZR (2 ^ 52))%R) by (split; [apply pos_INR|rewrite INR_IZR_INZ; apply IZR_le; exact N]); set (k := INR (length l)) in *.
  change (2 ^ 53) with (2 * 2 ^ 52) in U1; rewrite mult_IZR in U1; assert (KU : (0 <= k * u <= / 2)%R) by nra.
  apply Rabs_le_inv in B, C; set (w := unit_) in *; clearbody k t exact w; clear - B C U0 W KU K X.
  assert (UX : (0 <= u * exact)%R) by (apply Rmult_le_pos; lra); assert (KW : (0 <= k * w)%R) by (apply Rmult_le_pos; lra).
  assert (KT : (k * u * t <= k * u * exact + / 2 * ((301 / 100) * u * exact + k * w))%R).
  { assert (A1 : (k * u * t <= k * u * (exact + ((301 / 100) * u * exact + k * w)))%R) by (apply Rmult_le_compat_l; lra).
    assert (A2 : (k * u * ((301 / 100) * u * exact + k * w) <= / 2 * ((301 / 100) * u * exact + k * w))%R) by (apply Rmult_le_compat_r; lra); lra. }
  apply Rabs_le; split; lra.
Qed.
Print Assumptions C189_error.
(** two numbers that differ can be at distance 0 *)
Theorem C189_zero_refuted : exists a b x y s c, means a (Fin x) /\ means b (Fin y) /\ x <> y /\ dsquared_distance [a] [b] (Ok s) /\ means s (Fin 0) /\ ddistance [a] [b] (Ok c) /\ means c (Fin 0).
Proof.
  assert (Z0 : means (pat 0) (Fin 0)) by (apply literal_fin; [vm_compute; reflexivity|]; replace (key_units (pat 0)) with 0 by (vm_compute; reflexivity); ring).
  destruct (literal_differ 1 0) as (x & y & Mx & My & N); try (vm_compute; reflexivity); [vm_compute; discriminate|].
  assert (D : dsquared_distance [1] [0] (Ok (pat 0))).
  { assert (M1 : means 1 (Fin unit_)) by (apply literal_fin; [vm_compute; reflexivity|]; replace (key_units 1) with 1 by (vm_compute; reflexivity); ring).
    eapply (dsquares_next _ _ _ _ _ (pat 1) (pat 0) (pat 0)); [apply dsub_literal; vm_compute; reflexivity| |apply dadd_literal; vm_compute; reflexivity|constructor].
    exists (Fin unit_); split; [exact M1|]; cbn [square_number rounded]; replace (unit_ * unit_)%R with (IZR 1 / IZR (2 ^ 1074) * unit_)%R; [apply nearest_rounds; vm_compute; reflexivity|].
    rewrite (IZR_pow2 1074) by lia; f_equal; pose proof (pw_pos 1074); apply Rmult_eq_reg_r with (powerRZ 2 1074); [|lra]; transitivity 1%R; [field; lra|]; unfold unit_; rewrite <- pw_add; reflexivity. }
  exists 1, 0, x, y, (pat 0), (pat 0); do 4 (split; [assumption|]); split; [exact Z0|]; split; [|exact Z0].
  exists (Ok (pat 0)); split; [exact D|]; exists (pat 0); split; [|reflexivity]; exists (Fin 0); split; [exact Z0|]; cbn [root_number]; destruct (Rlt_dec 0 0); [lra|]; cbn [rounded]; rewrite sqrt_0; apply (rounds_exact _ _ _ Z0), Z0.
Qed.
Print Assumptions C189_zero_refuted.
(** two numbers can be at distance infinity although their difference is a finite double *)
Theorem C189_overflow_refuted : exists a b x y d s c, means a (Fin x) /\ means b (Fin y) /\ means d (Fin (x - y)) /\ dsquared_distance [a] [b] (Ok s) /\ means s (Inf false) /\ ddistance [a] [b] (Ok c) /\ means c (Inf false).
Proof.
  pose (inf := 2047 * 2 ^ 52 : bits); assert (I : means inf (Inf false)) by (apply means_meaning; [unfold pattern, inf; lia|vm_compute; reflexivity]).
  pose (a := 1623 * 2 ^ 52 : bits); assert (Ma : means a (Fin (powerRZ 2 600))).
  { apply literal_fin; [vm_compute; reflexivity|]; replace (key_units a) with (2 ^ 1674) by (vm_compute; reflexivity); rewrite IZR_pow2 by lia; unfold unit_; rewrite <- pw_add; reflexivity. }
  assert (M0 : means 0 (Fin 0)) by (apply (bits_of_int_means 0); lia).
  assert (D : dsquared_distance [a] [0] (Ok inf)).
  { eapply (dsquares_next _ _ _ _ _ a inf inf); [| | |constructor].
    - exists (Fin (powerRZ 2 600)), (Fin 0); split; [exact Ma|]; split; [exact M0|]; cbn [plus_number opp_number rounded]; rewrite Ropp_0, Rplus_0_r; apply (rounds_exact _ _ _ Ma), Ma.
    - exists (Fin (powerRZ 2 600)); split; [exact Ma|]; cbn [square_number rounded]; rewrite <- pw_add; change (600 + 600) with 1200.
      pose proof (pw_pos 1200) as P; pose proof (pw_pos 970) as P9; pose proof (pw_mono 1024 1200 ltac:(lia)) as L.
      unfold rounds; destruct (Rlt_dec (Rabs (powerRZ 2 1200)) too_large) as [S|S]; [exfalso; rewrite Rabs_right in S by lra; unfold too_large in S; lra|].
      destruct (Rlt_dec (powerRZ 2 1200) 0); [lra|exact I].
    - exists (Fin 0), (Inf false); split; [exact M0|]; split; [exact I|exact I]. }
  exists a, 0, (powerRZ 2 600), 0%R, a, inf, inf; split; [exact Ma|]; split; [exact M0|]; split; [rewrite Rminus_0_r; exact Ma|]; split; [exact D|]; split; [exact I|]; split; [|exact I].
  exists (Ok inf); split; [exact D|]; exists inf; split; [|reflexivity]; exists (Inf false); split; [exact I|exact I].
Qed.
Print Assumptions C189_overflow_refuted.
(** the hypotheses are met by two ranges at distance 25 squared *)
Example C189_case : exists l m xs ys s, Forall2 (fun b z => means b (Fin (IZR z))) l xs /\ Forall2 (fun b z => means b (Fin (IZR z))) m ys /\ length l = length m /\ dsquared_distance l m (Ok s) /\ means s (Fin (IZR 25)).
Proof.
  pose (l := map bits_of_int [7; -1]); pose (m := map bits_of_int [3; 2]).
  assert (Fl : Forall2 (fun b z => means b (Fin (IZR z))) l [7; -1]) by (repeat constructor; apply bits_of_int_means; lia).
  assert (Fm : Forall2 (fun b z => means b (Fin (IZR z))) m [3; 2]) by (repeat constructor; apply bits_of_int_means; lia).
  assert (P : forall l zs, Forall2 (fun b z => means b (Fin (IZR z))) l zs -> Forall pattern l) by (induction 1 as [|? ? ? ? M]; constructor; auto; eapply means_pattern, M).
  destruct (C189_total l m (P _ _ Fl) (P _ _ Fm)) as ((r & D) & _ & H & _); destruct (H r (or_introl D)) as [_ H']; destruct (H' eq_refl) as [s ->].
  exists l, m, [7; -1], [3; 2], s; split; [exact Fl|]; split; [exact Fm|]; split; [reflexivity|]; split; [exact D|].
  exact (C189_exact l m _ _ s Fl Fm ltac:(cbn; lia) D).
Qed.
