(** PropRound.v - property C184: sum, mean, += and -= of pictures of doubles when every operation rounds.
    The specification uses the meaning of a bit pattern ([means], FloatProofs.v) and exact real or whole numbers. *)
From Coq Require Import ZArith Reals Bool List Lia Lra ZifyBool Permutation.
From Verif Require Import Base ImageModel ImageFacts FloatModel FloatProofs RoundModel RoundProofs.
Import ListNotations.
Open Scope Z_scope.

(** ** C184  the operations *)
Lemma plus_comm v w : plus_number v w = plus_number w v.
Proof.
  destruct v as [|s|x], w as [|t|y]; cbn [plus_number]; try reflexivity.
  - destruct s, t; reflexivity.
  - rewrite Rplus_comm; reflexivity.
Qed.
Lemma rounded_unique v b c : rounded v b -> rounded v c -> meaning b = meaning c.
Proof.
  destruct v as [|s|x]; cbn [rounded]; try apply rounds_unique.
  all: intros Hb Hc; apply means_meaning in Hb; [|eapply means_pattern, Hb]; apply means_meaning in Hc; [|eapply means_pattern, Hc]; congruence.
Qed.
Lemma has_meaning b : pattern b -> means b (meaning b).
Proof. intros P; apply means_meaning; auto. Qed.
Lemma dadd_pattern a b c : dadd a b c -> pattern c.
Proof. intros (v & w & _ & _ & R); eapply rounded_pattern, R. Qed.
(** two doubles always have a sum, it is one number, and the order of the two does not matter; if it is finite no double is nearer to
    the exact sum, and if another is as near, the last bit of the result is zero *)
Theorem C184_addition a b : pattern a -> pattern b ->
  (exists c, dadd a b c)
  /\ (forall c c', dadd a b c -> dadd b a c' -> exists v, means c v /\ means c' v)
  /\ (forall x y c, means a (Fin x) -> means b (Fin y) -> dadd a b c ->
        forall r e s, means c (Fin r) -> means e (Fin s) ->
          (Rabs (x + y - r) <= Rabs (x + y - s))%R /\ (Rabs (x + y - r) = Rabs (x + y - s) -> r <> s -> Z.even c = true)).
Proof.
  intros Pa Pb; split; [|split].
  - destruct (rounded_total (plus_number (meaning a) (meaning b))) as [c Hc]; exists c, (meaning a), (meaning b); auto using has_meaning.
  - intros c c' (v & w & Mv & Mw & R) (w' & v' & Mw' & Mv' & R').
    assert (v' = v) as -> by (eapply means_inj; eauto); assert (w' = w) as -> by (eapply means_inj; eauto).
    rewrite plus_comm in R'; exists (meaning c); split; [apply has_meaning; eapply rounded_pattern, R|].
    rewrite (rounded_unique _ _ _ R R'); apply has_meaning; eapply rounded_pattern, R'.
  - intros x y c Mx My (v & w & Mv & Mw & R) r e s Mr Ms.
    assert (v = Fin x) as -> by (eapply means_inj; eauto); assert (w = Fin y) as -> by (eapply means_inj; eauto).
    cbn [plus_number rounded] in R; unfold rounds in R; destruct (Rlt_dec (Rabs (x + y)) too_large) as [S|S].
    + destruct R as (r' & Mr' & H); assert (Fin r' = Fin r) as Q by (eapply means_inj; eauto); injection Q as ->; apply (H e s Ms).
    + pose proof (means_inj _ _ _ R Mr); discriminate.
Qed.
Print Assumptions C184_addition.

(** ** the sum of a picture *)
(** whole numbers whose magnitudes add up to at most 2^53: in every order and grouping the sum is exact *)
Theorem C184_sum_exact (im : image bits) zs : Forall2 (fun b z => means b (Fin (IZR z))) (pix im) zs ->
  fold_right Z.add 0 (map Z.abs zs) <= 2 ^ 53 ->
  (exists r, dsum im r) /\ forall r, dsum im r -> means r (Fin (IZR (fold_right Z.add 0 zs))).
Proof.
  intros H L; assert (Z0 : Forall2 whole (0 :: pix im) (0 :: zs)) by (constructor; [apply (bits_of_int_means 0); lia|exact H]).
  assert (L0 : total (map Z.abs (0 :: zs)) <= 2 ^ 53) by (cbn [map total fold_right]; change (Z.abs 0) with 0; lia).
  split; [unfold dsum; eapply sums_exist; eauto; discriminate|].
  intros r S; exact (sums_whole _ _ _ S Z0 L0).
Qed.
Print Assumptions C184_sum_exact.
(** pictures of bytes with at most 2^45 pixels, for instance *)
Theorem C184_sum_bytes (im : image bits) zs : Forall2 (fun b z => means b (Fin (IZR z))) (pix im) zs ->
  Forall (fun z => 0 <= z <= 255) zs -> Z.of_nat (length (pix im)) <= 2 ^ 45 ->
  forall r, dsum im r -> means r (Fin (IZR (fold_right Z.add 0 zs))).
Proof.
  intros H B L; apply C184_sum_exact; [exact H|].
  assert (N : Z.of_nat (length zs) <= 2 ^ 45) by (replace (length zs) with (length (pix im)) by (clear - H; induction H; cbn [length]; congruence); exact L).
  assert (T : fold_right Z.add 0 (map Z.abs zs) <= 255 * Z.of_nat (length zs)).
  { clear - B; induction B as [|z l Hz _ IH]; cbn [map fold_right length]; lia. }
  change (2 ^ 53) with (256 * 2 ^ 45); lia.
Qed.
Print Assumptions C184_sum_bytes.

(** the possible results depend on the pixels only, not on where they are or on the extents *)
Lemma sums_permuted l r : sums l r -> forall l', Permutation l l' -> sums l' r.
Proof.
  destruct 1 as [a|l l1 l2 a b c P S1 S2 D]; intros l' Q; [apply Permutation_length_1_inv in Q; subst; constructor|].
  apply (sums_two _ l1 l2 a b c); auto; eapply perm_trans; [apply Permutation_sym, Q|exact P].
Qed.
Theorem C184_sum_order (im im' : image bits) : Permutation (pix im) (pix im') -> forall r, dsum im r <-> dsum im' r.
Proof.
  intros P r; split; intros S; apply (sums_permuted _ _ S); constructor; [exact P|apply Permutation_sym, P].
Qed.
Print Assumptions C184_sum_order.
(** a NaN anywhere makes every sum a NaN *)
Lemma sums_nan l r : sums l r -> forall a, In a l -> means a NaN -> means r NaN.
Proof.
  induction 1 as [a|l l1 l2 a b c P S1 IH1 S2 IH2 D]; intros p I M.
  - destruct I as [<-|[]]; exact M.
  - apply (Permutation_in _ P) in I; apply in_app_or in I; destruct D as (v & w & Mv & Mw & R).
    destruct I as [I|I]; [pose proof (IH1 _ I M) as N; rewrite (means_inj _ _ _ Mv N) in R; exact R|].
    pose proof (IH2 _ I M) as N; rewrite (means_inj _ _ _ Mw N), plus_comm in R; exact R.
Qed.
(** the sum of pixels that are not negative (infinities allowed) is never below any of them, whatever is rounded away *)
Definition not_negative (b : bits) : Prop := means b (Inf false) \/ exists x, means b (Fin x) /\ (0 <= x)%R.
Lemma dadd_up a b c : not_negative a -> not_negative b -> dadd a b c ->
  not_negative c /\ forall v w, means c w -> means a v \/ means b v -> ~ less w v.
Proof.
  intros Na Nb D.
  assert (half : forall a b, not_negative a -> not_negative b -> dadd a b c -> not_negative c /\ forall v w, means c w -> means a v -> ~ less w v).
  { clear; intros a b Na Nb (v & w & Mv & Mw & R).
    assert (big : means c (Inf false) -> not_negative c /\ forall v' w', means c w' -> means a v' -> ~ less w' v').
    { intros M; split; [left; exact M|]; intros v' w' M' _; rewrite (means_inj _ _ _ M' M); intros L; inversion L. }
    destruct Na as [Na|(x & Na & Hx)].
    { rewrite (means_inj _ _ _ Mv Na) in R; destruct Nb as [Nb|(y & Nb & Hy)]; rewrite (means_inj _ _ _ Mw Nb) in R; cbn in R; auto. }
    rewrite (means_inj _ _ _ Mv Na) in R; destruct Nb as [Nb|(y & Nb & Hy)]; rewrite (means_inj _ _ _ Mw Nb) in R; cbn [plus_number rounded] in R; [auto|].
    pose proof R as R'; unfold rounds in R'; destruct (Rlt_dec (Rabs (x + y)) too_large) as [S|S].
    - destruct R' as (r & Mr & _); assert (x <= r)%R by (eapply rounds_above; [exact Na| |exact R|exact Mr]; lra).
      split; [right; exists r; split; [exact Mr|lra]|].
      intros v' w' M1 M2 L; rewrite (means_inj _ _ _ M1 Mr), (means_inj _ _ _ M2 Na) in L; inversion L; lra.
    - destruct (Rlt_dec (x + y) 0) as [Q|Q]; [exfalso; lra|]; auto. }
  destruct (half a b Na Nb D) as [N1 H1]; split; [exact N1|].
  intros v w Mw [M|M]; [eapply H1; eauto|].
  assert (D' : dadd b a c) by (destruct D as (p & q & Mp & Mq & R); exists q, p; rewrite plus_comm; auto).
  destruct (half b a Nb Na D') as [_ H2]; eapply H2; eauto.
Qed.
Lemma less_trans u v w : less u v -> less v w -> less u w.
Proof. intros A B; inversion A; subst; inversion B; subst; constructor; lra. Qed.
Lemma less_pos u v w : ~ less v u -> ~ less w v -> u <> NaN -> v <> NaN -> w <> NaN -> ~ less w u.
Proof.
  intros A B Nu Nv Nw L; destruct u as [|[]|x], v as [|[]|y], w as [|[]|z]; try congruence; inversion L; subst; try (apply A; constructor; fail); try (apply B; constructor; fail).
  destruct (Rle_dec x y); [apply B|apply A]; constructor; lra.
Qed.
Lemma not_negative_fin b v : not_negative b -> means b v -> v <> NaN.
Proof. intros [M|(x & M & _)] H; rewrite (means_inj _ _ _ H M); discriminate. Qed.
Lemma not_negative_means b : not_negative b -> exists v, means b v.
Proof. intros [M|(x & M & _)]; eauto. Qed.
Lemma sums_up l r : sums l r -> Forall not_negative l -> not_negative r /\ forall p v w, In p l -> means p v -> means r w -> ~ less w v.
Proof.
  induction 1 as [a|l l1 l2 a b c P S1 IH1 S2 IH2 D]; intros F.
  - inversion F; subst; split; [assumption|]; intros p v w [<-|[]] Mv Mw L; rewrite (means_inj _ _ _ Mv Mw) in L; inversion L; lra.
  - apply (Permutation_Forall P), Forall_app in F; destruct F as [F1 F2]; destruct (IH1 F1) as [Na Ha], (IH2 F2) as [Nb Hb].
    destruct (dadd_up a b c Na Nb D) as [Nc Hc]; split; [exact Nc|]; intros p v w I Mv Mw.
    apply (Permutation_in _ P) in I; apply in_app_or in I; destruct I as [I|I].
    + destruct (not_negative_means a Na) as [u Mu]; apply (less_pos v u w); [eapply Ha; eauto|eapply Hc; eauto| |apply (not_negative_fin a u Na Mu)|apply (not_negative_fin c w Nc Mw)].
      rewrite Forall_forall in F1; apply (not_negative_fin p v (F1 p I) Mv).
    + destruct (not_negative_means b Nb) as [u Mu]; apply (less_pos v u w); [eapply Hb; eauto|eapply Hc; eauto| |apply (not_negative_fin b u Nb Mu)|apply (not_negative_fin c w Nc Mw)].
      rewrite Forall_forall in F2; apply (not_negative_fin p v (F2 p I) Mv).
Qed.
Lemma sums_any l : l <> [] -> Forall pattern l -> exists r, sums l r /\ pattern r.
Proof.
  induction l as [|a l IH]; intros N F; [contradiction|]; inversion F; subst; destruct l as [|b l]; [exists a; split; [constructor|assumption]|].
  destruct IH as (s & Hs & Ps); [discriminate|assumption|].
  destruct (C184_addition a s) as [[c Hc] _]; [assumption|assumption|]; exists c; split; [|eapply dadd_pattern, Hc].
  eapply (sums_two _ [a] (b :: l)); [reflexivity|constructor|exact Hs|exact Hc].
Qed.
Theorem C184_sum_of_any (im : image bits) : Forall pattern (pix im) ->
  (exists r, dsum im r)
  /\ (forall r p, dsum im r -> In p (pix im) -> means p NaN -> means r NaN)
  /\ (forall r, Forall not_negative (pix im) -> dsum im r -> not_negative r /\ forall p v w, In p (pix im) -> means p v -> means r w -> ~ less w v).
Proof.
  intros F; repeat split.
  - destruct (sums_any (0 :: pix im)) as (r & H & _); [discriminate|constructor; [unfold pattern; lia|exact F]|]; exists r; exact H.
  - intros r p S I M; eapply sums_nan; [exact S|right; exact I|exact M].
  - eapply (sums_up (0 :: pix im)); [eassumption|constructor; [right; exists 0%R; split; [apply (bits_of_int_means 0); lia|lra]|assumption]].
  - intros p v w I; eapply (sums_up (0 :: pix im)); [eassumption|constructor; [right; exists 0%R; split; [apply (bits_of_int_means 0); lia|lra]|assumption]|right; exact I].
Qed.
Print Assumptions C184_sum_of_any.

(** ** the mean of a picture *)
(** whole numbers as above: the mean is the double nearest to the exact mean, and lies between the least and the greatest pixel *)
Theorem C184_mean (im : image bits) zs : wf im -> Forall2 (fun b z => means b (Fin (IZR z))) (pix im) zs -> zs <> [] ->
  fold_right Z.add 0 (map Z.abs zs) <= 2 ^ 53 -> Z.of_nat (length zs) <= 2 ^ 53 ->
  (exists r, dmean im r)
  /\ forall r, dmean im r -> exists m, means r (Fin m)
     /\ (forall b' m', means b' (Fin m') ->
           (Rabs (IZR (fold_right Z.add 0%Z zs) / INR (length zs) - m) <= Rabs (IZR (fold_right Z.add 0%Z zs) / INR (length zs) - m'))%R)
     /\ (forall lo hi, Forall (fun z => lo <= z <= hi) zs -> (IZR lo <= m <= IZR hi)%R).
Proof.
  intros W H N L1 L2; destruct (C184_sum_exact im zs H L1) as [[s Hs] S]; set (t := fold_right Z.add 0 zs) in *.
  assert (C : count im = length zs) by (unfold count; rewrite <- W; clear - H; induction H; cbn [length]; congruence).
  assert (P : 0 < Z.of_nat (length zs)) by (destruct zs; [contradiction|cbn [length]; lia]).
  assert (P' : (0 < INR (length zs))%R) by (rewrite INR_IZR_INZ; apply IZR_lt; exact P).
  destruct (int_double (Z.of_nat (length zs)) ltac:(lia)) as [n Hn].
  assert (small : (Rabs (IZR t / INR (length zs)) < too_large)%R).
  { destruct (int_double (2 ^ 53) ltac:(lia)) as [e He]; apply means_not_large in He; eapply Rle_lt_trans; [|exact He].
    rewrite (Rabs_right (IZR (2 ^ 53))) by (apply Rle_ge, IZR_le; lia).
    unfold Rdiv; rewrite Rabs_mult, (Rabs_right (/ _)) by (apply Rle_ge; left; apply Rinv_0_lt_compat, P').
    apply Rle_trans with (Rabs (IZR t) * 1)%R; [apply Rmult_le_compat_l; [apply Rabs_pos|]|].
    - rewrite <- Rinv_1; apply Rinv_le_contravar; [lra|]; rewrite INR_IZR_INZ; apply IZR_le; lia.
    - rewrite Rmult_1_r, <- abs_IZR; apply IZR_le; eapply Z.le_trans; [exact (total_abs zs)|exact L1]. }
  split.
  - destruct (rounds_total (IZR t / INR (length zs))) as [r Hr]; exists r, s, n; split; [exact Hs|]; rewrite C; split; [apply (rounds_exact _ n); assumption|].
    apply (ddiv_fin _ _ _ (IZR t) (INR (length zs))); [apply S, Hs|rewrite INR_IZR_INZ; exact Hn|lra|exact Hr].
  - intros r (s' & n' & Hs' & Hn' & D); apply S in Hs'; rewrite C in Hn'; apply (rounds_exact _ n) in Hn'; [|exact Hn]; rewrite <- INR_IZR_INZ in Hn'.
    assert (R : rounds (IZR t / INR (length zs)) r).
    { destruct D as [x y Mx My _ R|sg y Mx _ _ _|_ My _|[Mx|My] _].
      - pose proof (means_inj _ _ _ Mx Hs') as Q1; pose proof (means_inj _ _ _ My Hn') as Q2; injection Q1 as ->; injection Q2 as ->; exact R.
      - pose proof (means_inj _ _ _ Mx Hs'); discriminate.
      - pose proof (means_inj _ _ _ My Hn') as Q; injection Q as Q; lra.
      - pose proof (means_inj _ _ _ Mx Hs'); discriminate.
      - pose proof (means_inj _ _ _ My Hn'); discriminate. }
    destruct (rounds_fin _ _ small R) as (m & Mm & near); exists m; split; [exact Mm|]; split; [intros b' m' M'; apply (near b' m' M')|].
    intros lo hi B.
    assert (T : lo * Z.of_nat (length zs) <= t <= hi * Z.of_nat (length zs)).
    { unfold t; clear - B; induction B as [|z l Hz _ IH]; cbn [fold_right length]; lia. }
    assert (fits : forall k, (In k zs) -> Z.abs k <= 2 ^ 53).
    { intros k I; revert L1; clear - I; revert k I; induction zs as [|z l IH]; intros k I L; [destruct I|].
      cbn [map fold_right] in L; assert (0 <= fold_right Z.add 0 (map Z.abs l)) by (clear; induction l as [|a l IH]; cbn [map fold_right]; lia).
      destruct I as [<-|I]; [lia|apply IH; [exact I|lia]]. }
    (* the bounds may be replaced by the least and the greatest pixel *)
    assert (tight : exists lo' hi', In lo' zs /\ In hi' zs /\ Forall (fun z => lo' <= z <= hi') zs).
    { clear - N; induction zs as [|z l IH]; [contradiction|]; destruct l as [|y l]; [exists z, z; repeat split; try (left; reflexivity); repeat constructor; lia|].
      destruct IH as (a & b & Ia & Ib & F); [discriminate|]; rewrite Forall_forall in F.
      exists (Z.min z a), (Z.max z b); repeat split.
      - destruct (Z.min_spec z a) as [[_ ->]|[_ ->]]; [left; reflexivity|right; exact Ia].
      - destruct (Z.max_spec z b) as [[_ ->]|[_ ->]]; [right; exact Ib|left; reflexivity].
      - apply Forall_forall; intros u [<-|I]; [|specialize (F _ I)]; lia. }
    destruct tight as (lo' & hi' & I1 & I2 & F).
    assert (T' : lo' * Z.of_nat (length zs) <= t <= hi' * Z.of_nat (length zs)).
    { unfold t; clear - F; induction F as [|z l Hz _ IH]; cbn [fold_right length]; lia. }
    destruct (int_double lo' (fits _ I1)) as [bl Hl], (int_double hi' (fits _ I2)) as [bh Hh].
    assert (lo <= lo' /\ hi' <= hi) as [Q1 Q2] by (rewrite Forall_forall in B; pose proof (B _ I1); pose proof (B _ I2); lia).
    destruct T' as [T1 T2]; apply IZR_le in T1, T2; rewrite mult_IZR, <- INR_IZR_INZ in T1, T2; apply IZR_le in Q1, Q2.
    assert (D1 : (IZR lo' <= IZR t / INR (length zs))%R) by (apply Rmult_le_reg_r with (INR (length zs)); [exact P'|]; unfold Rdiv; rewrite Rmult_assoc, Rinv_l by lra; lra).
    assert (D2 : (IZR t / INR (length zs) <= IZR hi')%R) by (apply Rmult_le_reg_r with (INR (length zs)); [exact P'|]; unfold Rdiv; rewrite Rmult_assoc, Rinv_l by lra; lra).
    pose proof (rounds_above _ _ _ _ _ Hl D1 R Mm); pose proof (rounds_below _ _ _ _ _ Hh D2 R Mm); lra.
Qed.
Print Assumptions C184_mean.

(** ** += and -= *)
(** pictures of different extents are refused; otherwise the extents are kept and every pixel is the double nearest to the exact
    sum or difference *)
Lemma dsub_total a b : pattern a -> pattern b -> exists c, dsub a b c.
Proof.
  intros Pa Pb; destruct (rounded_total (plus_number (meaning a) (opp_number (meaning b)))) as [c Hc]; exists c, (meaning a), (meaning b); auto using has_meaning.
Qed.
Lemma pointwise (op : bits -> bits -> bits -> Prop) : (forall a b, pattern a -> pattern b -> exists c, op a b c) ->
  forall lx ly, Forall pattern lx -> Forall pattern ly ->
  exists p, length p = length lx /\ forall i a b, nth_error lx i = Some a -> nth_error ly i = Some b -> exists c, nth_error p i = Some c /\ op a b c.
Proof.
  intros T; induction lx as [|a lx IH]; intros ly Fx Fy; [exists []; split; [reflexivity|intros [|i] ? ? H; discriminate]|].
  destruct ly as [|b ly]; [exists (a :: lx); split; [reflexivity|intros [|i] ? ? _ H; discriminate]|].
  inversion Fx; subst; inversion Fy; subst; destruct (IH ly) as (p & Lp & Np); auto; destruct (T a b) as [c Hc]; auto.
  exists (c :: p); split; [cbn [length]; congruence|]; intros [|i] u v U V; [|exact (Np i u v U V)].
  injection U as <-; injection V as <-; exists c; auto.
Qed.
Theorem C184_assign (x y : image bits) : wf x -> wf y -> Forall pattern (pix x) -> Forall pattern (pix y) ->
  (exists o, dplus_assign x y o) /\ (exists o, dminus_assign x y o)
  /\ (forall o, dplus_assign x y o \/ dminus_assign x y o -> dims y <> dims x <-> o = Throw RuntimeError)
  /\ (forall s, dplus_assign x y (Ok s) -> dims s = dims x /\ wf s
        /\ forall i a b c u v r e q, nth_error (pix x) i = Some a -> nth_error (pix y) i = Some b -> nth_error (pix s) i = Some c ->
             means a (Fin u) -> means b (Fin v) -> means c (Fin r) -> means e (Fin q) -> (Rabs (u + v - r) <= Rabs (u + v - q))%R)
  /\ (forall s, dminus_assign x y (Ok s) -> dims s = dims x /\ wf s
        /\ forall i a b c u v r e q, nth_error (pix x) i = Some a -> nth_error (pix y) i = Some b -> nth_error (pix s) i = Some c ->
             means a (Fin u) -> means b (Fin v) -> means c (Fin r) -> means e (Fin q) -> (Rabs (u - v - r) <= Rabs (u - v - q))%R).
Proof.
  intros Wx Wy Px Py.
  assert (exist : forall op : bits -> bits -> bits -> Prop, (forall a b, pattern a -> pattern b -> exists c, op a b c) -> exists o, combined op x y o).
  { intros op T; unfold combined, size_eqb; destruct (list_eq_dec Nat.eq_dec (dims y) (dims x)) as [E|E]; [|eexists; reflexivity].
    destruct (pointwise op T _ _ Px Py) as (p & Lp & Np); eexists; exists p; auto. }
  assert (near : forall z c r e q, rounds z c -> means c (Fin r) -> means e (Fin q) -> (Rabs (z - r) <= Rabs (z - q))%R).
  { intros z c r e q R Mc Me; unfold rounds in R; destruct (Rlt_dec (Rabs z) too_large) as [S|S].
    - destruct R as (r' & Mr & H); pose proof (means_inj _ _ _ Mr Mc) as Q; injection Q as ->; apply (H e q Me).
    - pose proof (means_inj _ _ _ R Mc); discriminate. }
  split; [apply exist; intros; apply C184_addition; auto|]; split; [apply exist; intros; apply dsub_total; auto|]; split; [|split].
  - intros o [H|H]; unfold dplus_assign, dminus_assign, combined, size_eqb in H; destruct (list_eq_dec Nat.eq_dec (dims y) (dims x)) as [E|E];
      try (split; [intros; exact H|intros; exact E]); destruct H as (p & _ & -> & _); split; try contradiction; discriminate.
  - intros s H; unfold dplus_assign, combined, size_eqb in H; destruct (list_eq_dec Nat.eq_dec (dims y) (dims x)) as [E|E]; [|discriminate].
    destruct H as (p & Lp & Q & Np); injection Q as ->; split; [reflexivity|]; split; [unfold wf in *; cbn [pix dims]; congruence|].
    cbn [pix]; intros i a b c u v r e q A B C Ma Mb Mc Me; destruct (Np i a b A B) as (c' & C' & (v1 & v2 & M1 & M2 & R)); assert (c' = c) as -> by congruence.
    rewrite (means_inj _ _ _ M1 Ma), (means_inj _ _ _ M2 Mb) in R; cbn [plus_number rounded] in R; eapply near; eauto.
  - intros s H; unfold dminus_assign, combined, size_eqb in H; destruct (list_eq_dec Nat.eq_dec (dims y) (dims x)) as [E|E]; [|discriminate].
    destruct H as (p & Lp & Q & Np); injection Q as ->; split; [reflexivity|]; split; [unfold wf in *; cbn [pix dims]; congruence|].
    cbn [pix]; intros i a b c u v r e q A B C Ma Mb Mc Me; destruct (Np i a b A B) as (c' & C' & (v1 & v2 & M1 & M2 & R)); assert (c' = c) as -> by congruence.
    rewrite (means_inj _ _ _ M1 Ma), (means_inj _ _ _ M2 Mb) in R; cbn [plus_number opp_number rounded] in R; eapply near; eauto.
Qed.
Print Assumptions C184_assign.
(** adding a picture of whole numbers and subtracting it again gives the first picture back *)
Theorem C184_undo (x y s t : image bits) ix iy : wf x -> wf y ->
  Forall2 (fun b z => means b (Fin (IZR z))) (pix x) ix -> Forall2 (fun b z => means b (Fin (IZR z))) (pix y) iy ->
  Forall (fun z => Z.abs z <= 2 ^ 52) ix -> Forall (fun z => Z.abs z <= 2 ^ 52) iy ->
  dplus_assign x y (Ok s) -> dminus_assign s y (Ok t) ->
  dims t = dims x /\ Forall2 (fun b z => means b (Fin (IZR z))) (pix t) ix.
Proof.
  intros Wx Wy Hx Hy Bx By S T; unfold dplus_assign, dminus_assign, combined, size_eqb in S, T.
  destruct (list_eq_dec Nat.eq_dec (dims y) (dims x)) as [E|E]; [|discriminate]; destruct S as (p & Lp & Q & Np); injection Q as ->; cbn [dims pix] in T.
  destruct (list_eq_dec Nat.eq_dec (dims y) (dims x)) as [E'|E']; [|discriminate]; destruct T as (q & Lq & Q & Nq); injection Q as ->; cbn [dims pix].
  split; [reflexivity|].
  assert (L : length (pix y) = length (pix x)) by (unfold wf in Wx, Wy; congruence).
  clear E E' Wx Wy; revert p q ix iy Hx Hy Bx By Lp Np Lq Nq L; generalize (pix y) as ly; generalize (pix x) as lx; induction lx as [|a lx IH]; intros ly p q ix iy Hx Hy Bx By Lp Np Lq Nq L.
  - inversion Hx; subst; destruct p, q; try discriminate; constructor.
  - destruct ly as [|b ly]; [discriminate|]; destruct p as [|c p]; [discriminate|]; destruct q as [|d q]; [discriminate|].
    inversion Hx as [|? za ? ix' Ma Hx']; subst; inversion Hy as [|? zb ? iy' Mb Hy']; subst; inversion Bx; subst; inversion By; subst.
    destruct (Np 0%nat a b eq_refl eq_refl) as (c' & Qc & D); injection Qc as <-; destruct (Nq 0%nat c b eq_refl eq_refl) as (d' & Qd & D'); injection Qd as <-.
    assert (C : whole c (za + zb)) by (eapply dadd_whole; eauto; change (2 ^ 53) with (2 * 2 ^ 52); lia).
    assert (C' : whole d (za + zb - zb)) by (eapply dsub_whole; eauto; change (2 ^ 53) with (2 * 2 ^ 52); lia).
    constructor; [replace za with (za + zb - zb) by lia; exact C'|].
    apply (IH ly p q ix' iy'); auto; cbn [length] in *; try lia.
    + intros i u v U V; exact (Np (S i) u v U V).
    + intros i u v U V; exact (Nq (S i) u v U V).
Qed.
Print Assumptions C184_undo.

(** ** what rounding breaks *)
(** 2^53, 3/4 and the numbers the sums below give; 0.9 *)
Definition p53 : bits := 1076 * 2 ^ 52.
Definition three_quarters : bits := 4604930618986332160.
Definition nine_tenths : bits := 4606281698874543309.
Lemma literal_fin b r : finite_double b = true -> (IZR (key_units b) * unit_ = r)%R -> means b (Fin r).
Proof. intros H <-; apply finite_double_means, H. Qed.
Lemma literal_differ a b : finite_double a = true -> finite_double b = true -> key_units a <> key_units b -> exists v w, means a (Fin v) /\ means b (Fin w) /\ v <> w.
Proof.
  intros Ha Hb N; eexists; eexists; split; [apply finite_double_means, Ha|]; split; [apply finite_double_means, Hb|].
  intros E; apply N, eq_IZR; apply Rmult_eq_reg_r with unit_; [exact E|]; pose proof unit_pos; lra.
Qed.
Lemma literal_less a b : finite_double a = true -> finite_double b = true -> key_units a < key_units b -> exists v w, means a (Fin v) /\ means b (Fin w) /\ (v < w)%R.
Proof.
  intros Ha Hb N; eexists; eexists; split; [apply finite_double_means, Ha|]; split; [apply finite_double_means, Hb|].
  apply Rmult_lt_compat_r; [apply unit_pos|apply IZR_lt, N].
Qed.
Lemma sums_snoc l a s c : sums l s -> dadd s a c -> sums (l ++ [a]) c.
Proof. intros S D; eapply (sums_two _ l [a]); [reflexivity|exact S|constructor|exact D]. Qed.
(** two orders of the same sum give different numbers: sum with a policy need not agree with sum without *)
Theorem C184_grouping_refuted : exists im r r' v v', wf im /\ Forall (fun b => exists x, means b (Fin x)) (pix im) /\
  dsum im r /\ dsum im r' /\ means r (Fin v) /\ means r' (Fin v') /\ v <> v'.
Proof.
  destruct (literal_differ (pat p53) (pat (p53 + 1))) as (v & w & Mv & Mw & N); try (vm_compute; reflexivity); [vm_compute; discriminate|].
  exists (mkImage [3%nat] [p53; three_quarters; three_quarters]), (pat p53), (pat (p53 + 1)), v, w; split; [reflexivity|].
  split; [repeat constructor; eexists; apply finite_double_means; vm_compute; reflexivity|].
  split; [|split; auto].
  - apply (sums_snoc [0; p53; three_quarters] _ (pat p53)); [|apply dadd_literal; vm_compute; reflexivity].
    apply (sums_snoc [0; p53] _ (pat p53)); [|apply dadd_literal; vm_compute; reflexivity].
    apply (sums_snoc [0] _ 0); [constructor|apply dadd_literal; vm_compute; reflexivity].
  - eapply (sums_two _ [0; p53] [three_quarters; three_quarters] (pat p53) (pat 4609434218613702656)); [reflexivity| | |apply dadd_literal; vm_compute; reflexivity].
    + apply (sums_snoc [0] _ 0); [constructor|apply dadd_literal; vm_compute; reflexivity].
    + apply (sums_snoc [three_quarters] _ three_quarters); [constructor|apply dadd_literal; vm_compute; reflexivity].
Qed.
Print Assumptions C184_grouping_refuted.
(** the mean of a picture whose pixels are all equal can be greater than every pixel *)
Theorem C184_mean_refuted : exists im p v r w, wf im /\ pix im <> [] /\ Forall (fun b => b = p) (pix im) /\
  dmean im r /\ means p (Fin v) /\ means r (Fin w) /\ (v < w)%R.
Proof.
  destruct (literal_less nine_tenths (pat (nine_tenths + 1))) as (v & w & Mv & Mw & N); try (vm_compute; reflexivity).
  exists (mkImage [7%nat] (repeat nine_tenths 7)), nine_tenths, v, (pat (nine_tenths + 1)), w; split; [reflexivity|]; split; [discriminate|]; split; [repeat constructor|].
  split; [|auto]; exists (pat 4618779187840496436), (pat 4619567317775286272); split; [|split].
  - unfold dsum; cbn [pix].
    apply (sums_snoc (0 :: repeat nine_tenths 6) _ (pat 4617765877924338074)); [|apply dadd_literal; vm_compute; reflexivity].
    apply (sums_snoc (0 :: repeat nine_tenths 5) _ (pat 4616752568008179712)); [|apply dadd_literal; vm_compute; reflexivity].
    apply (sums_snoc (0 :: repeat nine_tenths 4) _ (pat 4615288898129284301)); [|apply dadd_literal; vm_compute; reflexivity].
    apply (sums_snoc (0 :: repeat nine_tenths 3) _ (pat 4613262278296967578)); [|apply dadd_literal; vm_compute; reflexivity].
    apply (sums_snoc (0 :: repeat nine_tenths 2) _ (pat 4610785298501913805)); [|apply dadd_literal; vm_compute; reflexivity].
    apply (sums_snoc (0 :: repeat nine_tenths 1) _ (pat 4606281698874543309)); [|apply dadd_literal; vm_compute; reflexivity].
    apply (sums_snoc [0] _ 0); [constructor|apply dadd_literal; vm_compute; reflexivity].
  - assert (T : means (bits_of_int 7) (Fin (IZR 7))) by (apply bits_of_int_means; lia).
    apply (rounds_exact _ _ _ T); exact T.
  - apply ddiv_literal; vm_compute; reflexivity.
Qed.
Print Assumptions C184_mean_refuted.
(** adding and subtracting a picture again can lose the first picture *)
Theorem C184_undo_refuted : exists x y s t v w, wf x /\ wf y /\ dims y = dims x /\ dplus_assign x y (Ok s) /\ dminus_assign s y (Ok t) /\
  Forall (fun b => means b (Fin v)) (pix x) /\ Forall (fun b => means b (Fin w)) (pix t) /\ pix x <> [] /\ v <> w.
Proof.
  destruct (literal_differ three_quarters (pat 0)) as (v & w & Mv & Mw & N); try (vm_compute; reflexivity); [vm_compute; discriminate|].
  exists (mkImage [1%nat] [three_quarters]), (mkImage [1%nat] [p53]), (mkImage [1%nat] [pat p53]), (mkImage [1%nat] [pat 0]), v, w.
  do 3 (split; [reflexivity|]); split; [|split; [|split; [|split; [|split; [discriminate|exact N]]]]].
  - unfold dplus_assign, combined; cbn [dims]; replace (size_eqb [1%nat] [1%nat]) with true by reflexivity; exists [pat p53]; split; [reflexivity|]; split; [reflexivity|].
    intros [|[|i]] a b A B; try discriminate; injection A as <-; injection B as <-; exists (pat p53); split; [reflexivity|apply dadd_literal; vm_compute; reflexivity].
  - unfold dminus_assign, combined; cbn [dims]; replace (size_eqb [1%nat] [1%nat]) with true by reflexivity; exists [pat 0]; split; [reflexivity|]; split; [reflexivity|].
    intros [|[|i]] a b A B; try discriminate; injection A as <-; injection B as <-; exists (pat 0); split; [reflexivity|apply dsub_literal; vm_compute; reflexivity].
  - repeat constructor; exact Mv.
  - repeat constructor; exact Mw.
Qed.
Print Assumptions C184_undo_refuted.
(** the mean of finite pixels can be infinite: the sum overflows before it is divided *)
Definition greatest : bits := 2047 * 2 ^ 52 - 1.
Theorem C184_overflow_refuted : exists im r, wf im /\ pix im <> [] /\ Forall (fun b => exists x, means b (Fin x)) (pix im) /\ dmean im r /\ means r (Inf false).
Proof.
  pose (inf := 2047 * 2 ^ 52 : bits).
  assert (I : means inf (Inf false)) by (apply means_meaning; [unfold pattern, inf; lia|vm_compute; reflexivity]).
  assert (G : means greatest (Fin (IZR (2 ^ 2098 - 2 ^ 2045) * unit_))) by (apply literal_fin; [vm_compute; reflexivity|f_equal; f_equal; vm_compute; reflexivity]).
  assert (T : means (bits_of_int 2) (Fin (IZR 2))) by (apply bits_of_int_means; lia).
  exists (mkImage [2%nat] [greatest; greatest]), inf; split; [reflexivity|]; split; [discriminate|]; split; [repeat constructor; eauto|]; split; [|exact I].
  exists inf, (bits_of_int 2); split; [|split].
  - apply (sums_snoc [0; greatest] _ greatest).
    + apply (sums_snoc [0] _ 0); [constructor|].
      exists (Fin 0), (Fin (IZR (2 ^ 2098 - 2 ^ 2045) * unit_)); split; [apply (bits_of_int_means 0); lia|]; split; [exact G|].
      cbn [plus_number rounded]; rewrite Rplus_0_l; apply (rounds_exact _ greatest); exact G.
    + exists (Fin (IZR (2 ^ 2098 - 2 ^ 2045) * unit_)), (Fin (IZR (2 ^ 2098 - 2 ^ 2045) * unit_)); split; [exact G|]; split; [exact G|].
      cbn [plus_number rounded]; pose proof unit_pos as U; rewrite <- Rmult_plus_distr_r, <- plus_IZR.
      assert (L : (too_large <= IZR (2 ^ 2098 - 2 ^ 2045 + (2 ^ 2098 - 2 ^ 2045)) * unit_)%R).
      { rewrite too_large_units; apply Rmult_le_compat_r; [lra|]; apply IZR_le; vm_compute; discriminate. }
      assert (P : (0 < too_large)%R) by (rewrite too_large_units; apply Rmult_lt_0_compat; [apply IZR_lt; vm_compute; reflexivity|exact U]).
      unfold rounds; destruct (Rlt_dec (Rabs (IZR (2 ^ 2098 - 2 ^ 2045 + (2 ^ 2098 - 2 ^ 2045)) * unit_)) too_large) as [S|S]; [exfalso; rewrite Rabs_right in S; lra|].
      destruct (Rlt_dec _ 0) as [Q|Q]; [exfalso; lra|exact I].
  - apply (rounds_exact _ _ _ T); exact T.
  - eapply (ddiv_inf _ _ _ false (IZR 2)); [exact I|exact T|apply not_0_IZR; discriminate|].
    destruct (Rlt_dec (IZR 2) 0) as [Q|Q]; [exfalso; lra|exact I].
Qed.
Print Assumptions C184_overflow_refuted.

(** a picture of the theorems: 2 by 2 pixels 3, 250, 0 and 255 with sum 508 and mean 127 *)
Example C184_case : let zs := [3; 250; 0; 255] in let im := mkImage [2%nat; 2%nat] (map bits_of_int zs) in
  wf im /\ Forall2 (fun b z => means b (Fin (IZR z))) (pix im) zs /\ fold_right Z.add 0 (map Z.abs zs) <= 2 ^ 53
  /\ dsum im (bits_of_int 508) /\ dmean im (bits_of_int 127).
Proof.
  cbn [map]; split; [reflexivity|]; split; [repeat constructor; apply bits_of_int_means; lia|]; split; [cbn; lia|].
  assert (S : dsum (mkImage [2%nat; 2%nat] [bits_of_int 3; bits_of_int 250; bits_of_int 0; bits_of_int 255]) (bits_of_int 508)).
  { apply (sums_snoc [0; bits_of_int 3; bits_of_int 250; bits_of_int 0] _ (bits_of_int 253)); [|apply (dadd_literal _ _ (bits_of_int 508)); vm_compute; reflexivity].
    apply (sums_snoc [0; bits_of_int 3; bits_of_int 250] _ (bits_of_int 253)); [|apply (dadd_literal _ _ (bits_of_int 253)); vm_compute; reflexivity].
    apply (sums_snoc [0; bits_of_int 3] _ (bits_of_int 3)); [|apply (dadd_literal _ _ (bits_of_int 253)); vm_compute; reflexivity].
    apply (sums_snoc [0] _ 0); [constructor|apply (dadd_literal _ _ (bits_of_int 3)); vm_compute; reflexivity]. }
  split; [exact S|]; exists (bits_of_int 508), (bits_of_int 4); split; [exact S|]; split; [|apply (ddiv_literal _ _ (bits_of_int 127)); vm_compute; reflexivity].
  assert (T : means (bits_of_int 4) (Fin (IZR 4))) by (apply bits_of_int_means; lia).
  apply (rounds_exact _ _ _ T); exact T.
Qed.
