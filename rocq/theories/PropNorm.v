(** PropNorm.v - property C187: what normalize gives for pictures of doubles when every operation rounds.  The specification uses
    real numbers only. *)
From Coq Require Import ZArith Reals Bool List Lia Lra Psatz ZifyBool.
From Verif Require Import Base ImageModel ImageFacts ReduceModel ReduceProofs ArithProofs FloatModel FloatProofs RoundModel RoundProofs PropRound HueModel PropHue PropSumError NormModel.
Import ListNotations.
Open Scope Z_scope.

(** ** the order and the rounding *)
Lemma dlt_irrefl a : dlt a a = false.
Proof. unfold dlt; destruct (std_isnan a || std_isnan a); [reflexivity|apply Z.ltb_irrefl]. Qed.
Lemma dlt_trans a b c : dlt a b = true -> dlt b c = true -> dlt a c = true.
Proof. unfold dlt; destruct (std_isnan a), (std_isnan b), (std_isnan c); cbn [orb]; try discriminate; lia. Qed.
Lemma dlt_fin a b x y : means a (Fin x) -> means b (Fin y) -> dlt a b = false -> (y <= x)%R.
Proof.
  intros Ma Mb D; pose proof (means_pattern _ _ Ma) as Pa; pose proof (means_pattern _ _ Mb) as Pb; apply Rnot_lt_le; intros L.
  assert (dlt a b = true); [|congruence]; apply dlt_meaning; auto; apply means_meaning in Ma, Mb; auto; rewrite <- Ma, <- Mb; constructor; exact L.
Qed.
Lemma rounds_mono x y b c v w : (x <= y)%R -> rounds x b -> rounds y c -> means b (Fin v) -> means c (Fin w) -> (v <= w)%R.
Proof.
  intros L Rb Rc Mb Mc; destruct (Req_dec x y) as [->|N].
  - pose proof (rounds_unique _ _ _ Rb Rc) as U; pose proof (means_pattern _ _ Mb) as Pb; pose proof (means_pattern _ _ Mc) as Pc.
    apply means_meaning in Mb, Mc; auto; assert (E : Fin v = Fin w) by congruence; injection E as ->; lra.
  - assert (Db : dround x v) by (exists b; auto); assert (Dc : dround y w) by (exists c; auto).
    pose proof (dround_near x v w (ex_intro _ c Mc) Db) as N1; pose proof (dround_near y w v (ex_intro _ b Mb) Dc) as N2.
    apply Rnot_lt_le; intros C; revert N1 N2; unfold Rabs; repeat destruct (Rcase_abs _); intros; lra.
Qed.
Lemma dsub_fin a b c x y : means a (Fin x) -> means b (Fin y) -> dsub a b c -> rounds (x - y) c.
Proof.
  intros Ma Mb (v & w & Mv & Mw & R); rewrite (means_inj _ _ _ Mv Ma), (means_inj _ _ _ Mw Mb) in R; exact R.
Qed.
Lemma dquot_fin a b c x y : means a (Fin x) -> means b (Fin y) -> y <> 0%R -> dquot a b c -> rounds (x / y) c.
Proof.
  intros Ma Mb N Q; inversion Q as [D|x' Mx Nx Mz _|s Mi Mz _|x' s Mx Mi _|s t Mi Mj _];
    try (pose proof (means_inj _ _ _ Mz Mb) as E; injection E; intros; subst; lra);
    try (pose proof (means_inj _ _ _ Mi Mb); discriminate); try (pose proof (means_inj _ _ _ Mi Ma); discriminate).
  inversion D as [x' y' Mx My _ R|s y' Mx _ _ _|_ Mz _|[Mn|Mn] _].
  - pose proof (means_inj _ _ _ Mx Ma) as E; injection E as ->; pose proof (means_inj _ _ _ My Mb) as E; injection E as ->; exact R.
  - pose proof (means_inj _ _ _ Mx Ma); discriminate.
  - pose proof (means_inj _ _ _ Mz Mb) as E; injection E; intros; subst; lra.
  - pose proof (means_inj _ _ _ Mn Ma); discriminate.
  - pose proof (means_inj _ _ _ Mn Mb); discriminate.
Qed.
Lemma dquot_zeros a b c : means a (Fin 0) -> means b (Fin 0) -> dquot a b c -> means c NaN.
Proof.
  intros Ma Mb Q; inversion Q as [D|x' Mx Nx Mz _|s Mi Mz _|x' s Mx Mi _|s t Mi Mj _];
    try (pose proof (means_inj _ _ _ Mx Ma) as E; injection E; intros; subst; lra);
    try (pose proof (means_inj _ _ _ Mi Mb); discriminate); try (pose proof (means_inj _ _ _ Mi Ma); discriminate).
  inversion D as [x' y' Mx My Ny R|s y' Mx _ _ _|_ _ Mc|_ Mc]; auto.
  - pose proof (means_inj _ _ _ My Mb) as E; injection E as ->; lra.
  - pose proof (means_inj _ _ _ Mx Ma); discriminate.
Qed.
Lemma dquot_inf a b c s : means b (Inf s) -> dquot a b c -> (forall x, means a (Fin x) -> means c (Fin 0)) /\ (forall t, means a (Inf t) -> means c NaN).
Proof.
  intros Mb Q; inversion Q as [D|x' Mx Nx Mz _|t Mi Mz _|x' t Mx Mi Mc|t t' Mi Mj Mc];
    try (pose proof (means_inj _ _ _ Mz Mb); discriminate).
  - inversion D as [x' y' Mx My _ R|t y' Mx My _ _|_ Mz _|[Mn|Mn] Mc]; try (pose proof (means_inj _ _ _ My Mb); discriminate); try (pose proof (means_inj _ _ _ Mz Mb); discriminate).
    + split; intros z Mz; auto; pose proof (means_inj _ _ _ Mn Mz); discriminate.
    + pose proof (means_inj _ _ _ Mn Mb); discriminate.
  - split; intros z Mz; auto; pose proof (means_inj _ _ _ Mx Mz); discriminate.
  - split; intros z Mz; auto; pose proof (means_inj _ _ _ Mi Mz); discriminate.
Qed.
Lemma dquot_nan a b c : means a NaN \/ means b NaN -> dquot a b c -> means c NaN.
Proof.
  intros [Ma|Mb] Q; inversion Q as [D|x' Mx Nx Mz _|t Mi Mz _|x' t Mx Mi Mc|t t' Mi Mj Mc]; auto;
    try (pose proof (means_inj _ _ _ Mx Ma); discriminate); try (pose proof (means_inj _ _ _ Mi Ma); discriminate);
    try (pose proof (means_inj _ _ _ Mz Mb); discriminate); try (pose proof (means_inj _ _ _ Mi Mb); discriminate).
  - inversion D as [x' y' Mx My _ R|t y' Mx My _ _|Mz _ _|_ Mc]; auto; try (pose proof (means_inj _ _ _ Mx Ma); discriminate); pose proof (means_inj _ _ _ Mz Ma); discriminate.
  - inversion D as [x' y' Mx My _ R|t y' Mx My _ _|_ Mz _|_ Mc]; auto; try (pose proof (means_inj _ _ _ My Mb); discriminate); pose proof (means_inj _ _ _ Mz Mb); discriminate.
Qed.
Lemma dquot_total a b : pattern a -> pattern b -> exists c, dquot a b c.
Proof.
  intros Pa Pb; pose proof (has_meaning a Pa) as Ma; pose proof (has_meaning b Pb) as Mb.
  destruct (rounded_total NaN) as [n Mn]; destruct (rounded_total (Inf false)) as [i Mi]; cbn [rounded] in Mn, Mi.
  destruct (int_double 0 ltac:(lia)) as [z Mz].
  destruct (meaning a) as [|s|x], (meaning b) as [|t|y]; try (exists n; apply dquot_div, ddiv_nan; auto; fail).
  - exists n; eapply dquot_infs; eauto.
  - destruct (Req_dec y 0) as [->|N]; [exists i; eapply dquot_inf_by_zero; eauto|].
    destruct (rounded_total (Inf (if Rlt_dec y 0 then negb s else s))) as [j Mj]; exists j; apply dquot_div; eapply ddiv_inf; eauto.
  - exists z; eapply dquot_by_inf; eauto.
  - destruct (Req_dec y 0) as [->|N].
    + destruct (Req_dec x 0) as [->|N]; [exists n; apply dquot_div, ddiv_zero; auto|exists i; eapply dquot_by_zero; eauto].
    + destruct (rounds_total (x / y)) as [c Rc]; exists c; apply dquot_div; eapply ddiv_fin; eauto.
Qed.

(** ** the pixels of the result *)
Lemma norm_pixels (im : image bits) o : wf im -> pix im <> [] -> dnormalize im o ->
  exists hi lo out, im_max dlt im = Ok hi /\ im_min dlt im = Ok lo /\ In hi (pix im) /\ In lo (pix im) /\ (forall p, In p (pix im) -> dlt hi p = false /\ dlt p lo = false) /\
    o = Ok out /\ dims out = dims im /\ length (pix out) = length (pix im) /\
    forall i a, nth_error (pix im) i = Some a -> exists d l c, dsub hi lo d /\ dsub a lo l /\ dquot l d c /\ nth_error (pix out) i = Some c.
Proof.
  intros W N D; unfold dnormalize in D.
  destruct (vmax_ok dlt dlt_irrefl dlt_trans (pix im) N) as (hi & E1 & I1 & H1); destruct (vmin_ok dlt dlt_irrefl dlt_trans (pix im) N) as (lo & E2 & I2 & H2).
  unfold im_max, im_min in *; rewrite E1, E2 in D; destruct D as (df & lf & C1 & C2 & C3).
  unfold combined, set_all_value in C1, C2; cbn [dims pix] in C1, C2; rewrite size_eqb_same in C1, C2.
  destruct C1 as (p & Lp & Q & Np); injection Q as ->; destruct C2 as (q & Lq & Q & Nq); injection Q as ->.
  unfold combined in C3; cbn [dims pix] in C3; rewrite size_eqb_same in C3; destruct C3 as (r & Lr & -> & Nr).
  exists hi, lo, (mkImage (dims im) r); split; [exact E1|]; split; [exact E2|]; split; [exact I1|]; split; [exact I2|]; split; [intros x Hx; split; [apply H1|apply H2]; exact Hx|].
  split; [reflexivity|]; split; [reflexivity|]; cbn [pix]; split; [congruence|]; intros i a Na.
  assert (Mh : nth_error (map (fun _ => hi) (pix im)) i = Some hi) by (rewrite nth_error_map, Na; reflexivity).
  assert (Ml : nth_error (map (fun _ => lo) (pix im)) i = Some lo) by (rewrite nth_error_map, Na; reflexivity).
  destruct (Np i hi lo Mh Ml) as (d & Nd & Sd); destruct (Nq i a lo Na Ml) as (l & Nl & Sl); destruct (Nr i l d Nl Nd) as (c & Nc & Qc); exists d, l, c; auto.
Qed.
(** the least and the greatest number of the picture *)
Definition extremes (xs : list R) (lo hi : R) : Prop := In lo xs /\ In hi xs /\ Forall (fun x => lo <= x <= hi)%R xs.
Lemma extremes_of (im : image bits) xs lo hi l h : Forall2 (fun b x => means b (Fin x)) (pix im) xs -> extremes xs lo hi ->
  In h (pix im) -> In l (pix im) -> (forall p, In p (pix im) -> dlt h p = false /\ dlt p l = false) -> means l (Fin lo) /\ means h (Fin hi).
Proof.
  intros F (Il & Ih & B) Ph Pl D; rewrite Forall_forall in B.
  assert (G : forall p, In p (pix im) -> exists x, In x xs /\ means p (Fin x)).
  { clear - F; induction F as [|a x la lx M F IH]; intros p Hp; [destruct Hp|]; destruct Hp as [<-|Hp]; [exists x; cbn; auto|]; destruct (IH p Hp) as (y & Iy & My); exists y; cbn; auto. }
  assert (G' : forall x, In x xs -> exists p, In p (pix im) /\ means p (Fin x)).
  { clear - F; induction F as [|a y la lx M F IH]; intros x Hx; [destruct Hx|]; destruct Hx as [<-|Hx]; [exists a; cbn; auto|]; destruct (IH x Hx) as (p & Ip & Mp); exists p; cbn; auto. }
  destruct (G h Ph) as (x & Ix & Mx), (G l Pl) as (y & Iy & My), (G' lo Il) as (p & Ip & Mp), (G' hi Ih) as (q & Iq & Mq).
  pose proof (dlt_fin _ _ _ _ Mx Mq (proj1 (D q Iq))); pose proof (dlt_fin _ _ _ _ Mp My (proj2 (D p Ip))); pose proof (B x Ix); pose proof (B y Iy).
  assert (x = hi) as <- by lra; assert (y = lo) as <- by lra; auto.
Qed.
Lemma difference_pos a b x y : means a (Fin x) -> means b (Fin y) -> (x < y)%R -> (unit_ <= y - x)%R.
Proof.
  intros Ma Mb L; apply means_fin_key in Ma, Mb; destruct Ma as (_ & _ & ->), Mb as (_ & _ & ->); pose proof unit_pos as U.
  assert (K : key_units a < key_units b) by (apply lt_IZR; apply Rmult_lt_reg_r with unit_; lra).
  rewrite <- Rmult_minus_distr_r, <- minus_IZR; rewrite <- (Rmult_1_l unit_) at 1; apply Rmult_le_compat_r; [lra|apply (IZR_le 1); lia].
Qed.
Lemma unit_double : exists b, means b (Fin unit_).
Proof. exists 1; apply literal_fin; [vm_compute; reflexivity|]; replace (key_units 1) with 1 by (vm_compute; reflexivity); ring. Qed.

(** one pixel: 0 for the least, 1 for the greatest, between them for the others, and near the exact quotient *)
Lemma quotient_error x m y q e : (0 < m -> 0 <= x <= m -> 0 <= q -> 0 < y -> Rabs (x - q) <= u * x -> Rabs (m - y) <= u * m ->
  Rabs (q / y - e) <= u * Rabs (q / y) + unit_ -> Rabs (e - x / m) <= powerRZ 2 (-51) * (x / m) + unit_)%R.
Proof.
  intros M X Q Y E1 E2 E3; destruct u_value as [U0 U1]; change (2 ^ 53) with 9007199254740992 in U1.
  assert (P51 : (powerRZ 2 (-51) = 4 * u)%R) by (unfold u; change (-51) with (2 + -53); rewrite pw_add, <- (IZR_pow2 2) by lia; reflexivity).
  assert (U : (u <= / 1000)%R) by lra; rewrite P51; clear P51 U1.
  apply Rabs_le_inv in E1, E2; set (r := (x / m)%R); set (t := (q / y)%R) in *.
  assert (Rx : (x = r * m)%R) by (unfold r; field; lra); assert (Tq : (q = t * y)%R) by (unfold t; field; lra).
  assert (R0 : (0 <= r)%R) by (unfold r; apply Rmult_le_pos; [lra|left; apply Rinv_0_lt_compat; lra]).
  assert (T0 : (0 <= t)%R) by (unfold t; apply Rmult_le_pos; [lra|left; apply Rinv_0_lt_compat; lra]).
  rewrite (Rabs_right t) in E3 by lra; apply Rabs_le_inv in E3.
  assert (Y1 : (m * (1 - u) <= y <= m * (1 + u))%R) by lra.
  assert (Q1 : (r * m * (1 - u) <= t * y <= r * m * (1 + u))%R) by (rewrite <- Tq; rewrite <- Rx; lra).
  assert (A1 : (t * (1 - u) <= r * (1 + u))%R).
  { apply Rmult_le_reg_l with m; [exact M|]; assert (t * (m * (1 - u)) <= t * y)%R by (apply Rmult_le_compat_l; lra); lra. }
  assert (A2 : (r * (1 - u) <= t * (1 + u))%R).
  { apply Rmult_le_reg_l with m; [exact M|]; assert (t * y <= t * (m * (1 + u)))%R by (apply Rmult_le_compat_l; lra); lra. }
  clear - A1 A2 E3 U U0 R0 T0; set (v := unit_) in *; clearbody v r t; generalize dependent u; intros w; intros.
  assert (0 <= w * r)%R by nra; assert (w * w * r <= / 1000 * (w * r))%R by nra.
  assert (t <= r * (1 + 5 / 2 * w))%R by nra.
  assert (r * (1 - 2 * w) <= t)%R by nra.
  apply Rabs_le; split; nra.
Qed.
Lemma norm_pixel bh bl ba hi lo x d l c : means bh (Fin hi) -> means bl (Fin lo) -> means ba (Fin x) -> (lo < hi)%R -> (lo <= x <= hi)%R -> (hi - lo < too_large)%R ->
  dsub bh bl d -> dsub ba bl l -> dquot l d c ->
  exists y, means c (Fin y) /\ (0 <= y <= 1)%R /\ (x = lo -> y = 0)%R /\ (x = hi -> y = 1)%R /\ (Rabs (y - (x - lo) / (hi - lo)) <= powerRZ 2 (-51) * ((x - lo) / (hi - lo)) + unit_)%R /\
    exists e z, means d (Fin e) /\ means l (Fin z) /\ (0 < e)%R /\ rounds (hi - lo) d /\ rounds (x - lo) l /\ rounds (z / e) c.
Proof.
  intros Mh Ml Ma L B T Sd Sl Q.
  apply (dsub_fin _ _ _ _ _ Mh Ml) in Sd; apply (dsub_fin _ _ _ _ _ Ma Ml) in Sl.
  destruct (rounds_fin (hi - lo) d) as (e & Me & _); [rewrite Rabs_right by lra; exact T|exact Sd|].
  destruct (rounds_fin (x - lo) l) as (z & Mz & _); [rewrite Rabs_right by lra; lra|exact Sl|].
  destruct unit_double as [bu Mu]; destruct (int_double 0 ltac:(lia)) as [b0 M0]; destruct (int_double 1 ltac:(lia)) as [b1 M1].
  pose proof (rounds_above _ _ _ _ _ Mu (difference_pos _ _ _ _ Ml Mh L) Sd Me) as E; pose proof unit_pos as U; assert (E0 : (0 < e)%R) by lra.
  assert (Z0 : (0 <= z)%R) by (eapply (rounds_above _ _ _ _ _ M0); [|exact Sl|exact Mz]; lra).
  assert (Z1 : (z <= e)%R) by (apply (rounds_mono (x - lo) (hi - lo) l d); auto; lra).
  pose proof (dquot_fin _ _ _ _ _ Mz Me ltac:(lra) Q) as R.
  assert (ZE : (0 <= z / e <= 1)%R).
  { split; [apply Rmult_le_pos; [lra|left; apply Rinv_0_lt_compat; lra]|]; apply Rmult_le_reg_r with e; [lra|]; replace (z / e * e)%R with z by (field; lra); lra. }
  destruct (rounds_fin (z / e) c) as (y & My & _); [|exact R|].
  { eapply Rle_lt_trans; [rewrite Rabs_right by lra; apply ZE|]; pose proof (means_not_large _ _ M1) as K; rewrite Rabs_right in K by lra; exact K. }
  exists y; split; [exact My|]; split; [split; [apply (rounds_above _ _ _ _ _ M0 (proj1 ZE) R My)|apply (rounds_below _ _ _ _ _ M1 (proj2 ZE) R My)]|].
  split; [|split; [|split]].
  - intros ->; rewrite Rminus_diag_eq in Sl by reflexivity; apply (rounds_exact _ _ _ M0) in Sl; pose proof (means_inj _ _ _ Sl Mz) as Q0; injection Q0 as <-.
    replace (0 / e)%R with 0%R in R by (field; lra); apply (rounds_exact _ _ _ M0) in R; pose proof (means_inj _ _ _ R My) as Q0; injection Q0 as <-; reflexivity.
  - intros ->; assert (z = e).
    { pose proof (rounds_unique _ _ _ Sl Sd) as V; pose proof (means_pattern _ _ Mz) as Pz; pose proof (means_pattern _ _ Me) as Pe; clear - V Mz Me Pz Pe.
      apply means_meaning in Mz, Me; auto; congruence. }
    subst z; replace (e / e)%R with 1%R in R by (field; lra); apply (rounds_exact _ _ _ M1) in R; pose proof (means_inj _ _ _ R My) as Q0; injection Q0 as <-; reflexivity.
  - apply (quotient_error (x - lo) (hi - lo) e z y); try lra.
    + pose proof (sub_error _ _ _ _ _ _ Ma Ml Sl Mz) as S; rewrite (Rabs_right (x - lo)) in S by lra; exact S.
    + pose proof (sub_error _ _ _ _ _ _ Mh Ml Sd Me) as S; rewrite (Rabs_right (hi - lo)) in S by lra; exact S.
    + exact (round_error _ _ _ R My).
  - exists e, z; auto 6.
Qed.

(** ** C187 *)
(** for every picture of finite doubles that are not all equal and whose range does not overflow: every result is a double from 0 to
    1, the least pixels become 0, the greatest exactly 1, the order is kept, and every result is within 2^-51 of its size (and one
    smallest double) of the exact quotient *)
Theorem C187_normalize (im : image bits) xs lo hi o : wf im -> Forall2 (fun b x => means b (Fin x)) (pix im) xs -> extremes xs lo hi -> (lo < hi)%R -> (hi - lo < too_large)%R ->
  dnormalize im o ->
  exists out ys, o = Ok out /\ dims out = dims im /\ wf out /\ Forall2 (fun b y => means b (Fin y)) (pix out) ys /\ extremes ys 0 1 /\
    (forall i x y, nth_error xs i = Some x -> nth_error ys i = Some y ->
       (x = lo -> y = 0)%R /\ (x = hi -> y = 1)%R /\ (Rabs (y - (x - lo) / (hi - lo)) <= powerRZ 2 (-51) * ((x - lo) / (hi - lo)) + powerRZ 2 (-1074))%R) /\
    (forall i j x x' y y', nth_error xs i = Some x -> nth_error xs j = Some x' -> nth_error ys i = Some y -> nth_error ys j = Some y' -> (x <= x' -> y <= y')%R).
Proof.
  intros W F X L T D; assert (N : pix im <> []) by (destruct X as (I & _); intros E; rewrite E in F; inversion F; subst; destruct I).
  destruct (norm_pixels im o W N D) as (bh & bl & out & _ & _ & Ih & Il & O & -> & Do & Lo & P).
  destruct (extremes_of im xs lo hi bl bh F X Ih Il O) as [Ml Mh].
  assert (A : forall i x, nth_error xs i = Some x -> exists a, nth_error (pix im) i = Some a /\ means a (Fin x)).
  { clear - F; induction F as [|a x la lx M F IH]; intros [|i] z H; try discriminate; [injection H as <-; exists a; auto|exact (IH i z H)]. }
  assert (BX : forall i x, nth_error xs i = Some x -> (lo <= x <= hi)%R) by (intros i x H; destruct X as (_ & _ & B); rewrite Forall_forall in B; apply B; eapply nth_error_In, H).
  assert (LX : length xs = length (pix im)) by (symmetry; clear - F; induction F; cbn [length]; congruence).
  assert (V : forall i x, nth_error xs i = Some x -> exists c y, nth_error (pix out) i = Some c /\ means c (Fin y) /\ (0 <= y <= 1)%R /\ (x = lo -> y = 0)%R /\ (x = hi -> y = 1)%R /\
    (Rabs (y - (x - lo) / (hi - lo)) <= powerRZ 2 (-51) * ((x - lo) / (hi - lo)) + unit_)%R /\ exists d l e z, means d (Fin e) /\ means l (Fin z) /\ (0 < e)%R /\ rounds (hi - lo) d /\ rounds (x - lo) l /\ rounds (z / e) c).
  { intros i x H; destruct (A i x H) as (a & Na & Ma); destruct (P i a Na) as (d & l & c & Sd & Sl & Q & Nc).
    destruct (norm_pixel _ _ _ _ _ _ _ _ _ Mh Ml Ma L (BX i x H) T Sd Sl Q) as (y & My & B & Z0 & Z1 & E & e & z & R); exists c, y; split; [exact Nc|]; split; [exact My|]; split; [exact B|]; split; [exact Z0|]; split; [exact Z1|]; split; [exact E|]; exists d, l, e, z; exact R. }
  assert (Y : Forall2 (fun b y => means b (Fin y)) (pix out) (map value (pix out))).
  { assert (G : forall b, In b (pix out) -> means b (Fin (value b))).
    { intros b Hb; apply In_nth_error in Hb; destruct Hb as [i Hi]; assert (HL : (i < length xs)%nat) by (rewrite LX, <- Lo; apply nth_error_Some; congruence).
      apply nth_error_Some in HL; destruct (nth_error xs i) as [x|] eqn:Ex; [|congruence]; destruct (V i x Ex) as (c & y & Nc & My & _); assert (c = b) as -> by congruence.
      rewrite (value_means _ _ My); exact My. }
    clear - G; induction (pix out) as [|b l IH]; constructor; [apply G; cbn; auto|apply IH; intros; apply G; cbn; auto]. }
  assert (VY : forall i x y, nth_error xs i = Some x -> nth_error (map value (pix out)) i = Some y -> exists c, nth_error (pix out) i = Some c /\ means c (Fin y) /\ (0 <= y <= 1)%R /\ (x = lo -> y = 0)%R /\ (x = hi -> y = 1)%R /\
    (Rabs (y - (x - lo) / (hi - lo)) <= powerRZ 2 (-51) * ((x - lo) / (hi - lo)) + unit_)%R /\ exists d l e z, means d (Fin e) /\ means l (Fin z) /\ (0 < e)%R /\ rounds (hi - lo) d /\ rounds (x - lo) l /\ rounds (z / e) c).
  { intros i x y Hx Hy; destruct (V i x Hx) as (c & y' & Nc & My & R); rewrite nth_error_map, Nc in Hy; cbn [option_map] in Hy; rewrite (value_means _ _ My) in Hy; injection Hy as ->; exists c; auto. }
  assert (YX : forall i x, nth_error xs i = Some x -> exists y, nth_error (map value (pix out)) i = Some y) by (intros i x H; destruct (V i x H) as (c & y & Nc & _); rewrite nth_error_map, Nc; cbn; eauto).
  exists out, (map value (pix out)); split; [reflexivity|]; split; [exact Do|]; split; [unfold wf in *; congruence|]; split; [exact Y|]; split; [|split].
  - destruct X as (I0 & I1 & _); split; [|split].
    + apply In_nth_error in I0; destruct I0 as [i Hi]; destruct (YX i lo Hi) as [y Hy]; destruct (VY i lo y Hi Hy) as (_ & _ & _ & _ & Z0 & _); rewrite (Z0 eq_refl) in Hy; eapply nth_error_In, Hy.
    + apply In_nth_error in I1; destruct I1 as [i Hi]; destruct (YX i hi Hi) as [y Hy]; destruct (VY i hi y Hi Hy) as (_ & _ & _ & _ & _ & Z1 & _); rewrite (Z1 eq_refl) in Hy; eapply nth_error_In, Hy.
    + apply Forall_forall; intros y Iy; apply In_nth_error in Iy; destruct Iy as [i Hi].
      assert (HL : (i < length xs)%nat) by (rewrite LX, <- Lo, <- (map_length value); apply nth_error_Some; congruence).
      apply nth_error_Some in HL; destruct (nth_error xs i) as [x|] eqn:Ex; [|congruence]; destruct (VY i x y Ex Hi) as (_ & _ & _ & B & _); exact B.
  - intros i x y Hx Hy; destruct (VY i x y Hx Hy) as (_ & _ & _ & _ & Z0 & Z1 & E & _); auto.
  - intros i j x x' y y' Hx Hx' Hy Hy' LE.
    destruct (VY i x y Hx Hy) as (c & _ & Mc & _ & _ & _ & _ & d & l & e & z & Md & Mz & E0 & Rd & Rl & Rc).
    destruct (VY j x' y' Hx' Hy') as (c' & _ & Mc' & _ & _ & _ & _ & d' & l' & e' & z' & Md' & Mz' & E0' & Rd' & Rl' & Rc').
    assert (e' = e) as -> by (apply Rle_antisym; [apply (rounds_mono (hi - lo) (hi - lo) d' d)|apply (rounds_mono (hi - lo) (hi - lo) d d')]; auto; lra).
    assert (ZZ : (z <= z')%R) by (apply (rounds_mono (x - lo) (x' - lo) l l'); auto; lra).
    apply (rounds_mono (z / e) (z' / e) c c'); auto; apply Rmult_le_compat_r; [left; apply Rinv_0_lt_compat; lra|exact ZZ].
Qed.
Print Assumptions C187_normalize.

(** normalize gives a result for every picture of doubles, also of infinities and NaNs, and is undefined for no pixels only *)
Theorem C187_total (im : image bits) : wf im -> Forall pattern (pix im) ->
  (exists o, dnormalize im o) /\ (forall o, dnormalize im o -> (o = UB <-> pix im = []) /\ (pix im <> [] -> exists out, o = Ok out /\ dims out = dims im /\ wf out)).
Proof.
  intros W P; split.
  - destruct (pix im) as [|a r] eqn:E; [exists UB; unfold dnormalize, im_max, im_min; rewrite E; reflexivity|].
    assert (N : pix im <> []) by congruence; rewrite <- E in P; clear E a r.
    destruct (vmax_ok dlt dlt_irrefl dlt_trans (pix im) N) as (hi & E1 & I1 & _); destruct (vmin_ok dlt dlt_irrefl dlt_trans (pix im) N) as (lo & E2 & I2 & _).
    assert (PP : forall v, In v (pix im) -> Forall pattern (map (fun _ => v) (pix im))).
    { intros v Hv; apply Forall_forall; intros w Hw; apply in_map_iff in Hw; destruct Hw as (_ & <- & _); rewrite Forall_forall in P; auto. }
    destruct (pointwise dsub dsub_total _ _ (PP hi I1) (PP lo I2)) as (p & Lp & Np); destruct (pointwise dsub dsub_total _ _ P (PP lo I2)) as (q & Lq & Nq).
    assert (SP : forall lx ly s, length s = length lx -> length lx = length ly -> (forall i a b, nth_error lx i = Some a -> nth_error ly i = Some b -> exists c, nth_error s i = Some c /\ dsub a b c) -> Forall pattern s).
    { intros lx ly s L1 L2 H; apply Forall_forall; intros c Hc; apply In_nth_error in Hc; destruct Hc as [i Hj]; assert (Hi : @nth_error bits s i = Some c) by exact Hj; clear Hj.
      assert (HL : (i < length lx)%nat) by (rewrite <- L1; apply nth_error_Some; intros K; rewrite K in Hi; discriminate); assert (HL' := HL); rewrite L2 in HL'.
      apply nth_error_Some in HL, HL'; destruct (nth_error lx i) as [a|] eqn:Ea; [|congruence]; destruct (nth_error ly i) as [b|] eqn:Eb; [|congruence].
      destruct (H i a b Ea Eb) as (c' & Nc & (v & w & _ & _ & R)); assert (c' = c) as -> by (apply (eq_trans (eq_sym Nc)) in Hi; injection Hi; auto); eapply rounded_pattern, R. }
    rewrite map_length in Lp.
    assert (Fp : Forall pattern p) by (eapply SP; [| |exact Np]; rewrite !map_length; auto).
    assert (Fq : Forall pattern q) by (eapply SP; [| |exact Nq]; rewrite ?map_length; auto).
    destruct (pointwise dquot dquot_total _ _ Fq Fp) as (r & Lr & Nr).
    exists (Ok (mkImage (dims im) r)); unfold dnormalize, im_max, im_min; rewrite E1, E2; exists (mkImage (dims im) p), (mkImage (dims im) q).
    unfold combined, set_all_value; cbn [dims pix]; rewrite size_eqb_same; split; [exists p; rewrite map_length; auto|]; split; [exists q; auto|exists r; auto].
  - intros o D; destruct (pix im) as [|a r] eqn:E.
    + unfold dnormalize, im_max, im_min in D; rewrite E in D; cbn in D; split; [tauto|congruence].
    + assert (N : pix im <> []) by congruence; destruct (norm_pixels im o W N D) as (bh & bl & out & _ & _ & _ & _ & _ & -> & Do & Lo & _).
      split; [split; discriminate|]; intros _; exists out; split; [reflexivity|]; split; [exact Do|]; unfold wf in *; congruence.
Qed.
Print Assumptions C187_total.

(** normalising a second time changes no value *)
Theorem C187_again (im a b : image bits) xs lo hi : wf im -> Forall2 (fun b x => means b (Fin x)) (pix im) xs -> extremes xs lo hi -> (lo < hi)%R -> (hi - lo < too_large)%R ->
  dnormalize im (Ok a) -> dnormalize a (Ok b) -> dims b = dims a /\ Forall2 (fun p q => exists y, means p (Fin y) /\ means q (Fin y)) (pix a) (pix b).
Proof.
  intros W F X L T D1 D2; destruct (C187_normalize im xs lo hi _ W F X L T D1) as (a' & ys & Q & Da & Wa & Fa & Xa & _); injection Q as <-.
  assert (N : pix a <> []) by (destruct Xa as (I & _); intros E; rewrite E in Fa; inversion Fa; subst; destruct I).
  destruct (norm_pixels a _ Wa N D2) as (bh & bl & out & _ & _ & Ih & Il & O & Q & Do & Lo & P); injection Q as <-.
  destruct (extremes_of a ys 0 1 bl bh Fa Xa Ih Il O) as [Ml Mh]; split; [exact Do|].
  assert (V : forall i p q, nth_error (pix a) i = Some p -> nth_error (pix b) i = Some q -> exists y, means p (Fin y) /\ means q (Fin y)).
  { intros i p q Np Nq; destruct (P i p Np) as (d & l & c & Sd & Sl & Qc & Nc); assert (c = q) as -> by congruence.
    assert (M : exists y, means p (Fin y)).
    { clear - Fa Np; revert i Np; induction Fa as [|r y la ly M F IH]; intros [|i] H; try discriminate; [injection H as <-; eauto|eapply IH, H]. }
    destruct M as [y My]; exists y; split; [exact My|].
    apply (dsub_fin _ _ _ _ _ Mh Ml) in Sd; apply (dsub_fin _ _ _ _ _ My Ml) in Sl; rewrite Rminus_0_r in Sd, Sl.
    apply (rounds_exact _ _ _ Mh) in Sd; apply (rounds_exact _ _ _ My) in Sl.
    pose proof (dquot_fin _ _ _ _ _ Sl Sd ltac:(lra) Qc) as R; replace (y / 1)%R with y in R by field; apply (rounds_exact _ _ _ My) in R; exact R. }
  clear - Lo V; revert Lo V; generalize (pix a) as l, (pix b) as m; induction l as [|p l IH]; intros [|q m] Lo V; try discriminate; constructor; [apply (V 0%nat p q); reflexivity|].
  apply IH; [cbn in Lo; lia|intros i; exact (V (S i))].
Qed.
Print Assumptions C187_again.

(** where it fails: a picture of one finite value becomes a picture of NaNs; when the range overflows the greatest pixels become NaN
    and all results that are numbers are 0; a NaN pixel stays NaN *)
Theorem C187_constant (im out : image bits) x : wf im -> Forall (fun b => means b (Fin x)) (pix im) -> dnormalize im (Ok out) -> Forall (fun b => means b NaN) (pix out).
Proof.
  intros W F D; rewrite Forall_forall in F; destruct (pix im) as [|p r] eqn:E; [unfold dnormalize, im_max, im_min in D; rewrite E in D; discriminate|].
  assert (N : pix im <> []) by congruence; rewrite <- E in F; clear E p r.
  destruct (norm_pixels im _ W N D) as (bh & bl & o & _ & _ & Ih & Il & O & Q & Do & Lo & P); injection Q as <-.
  apply Forall_forall; intros c Hc; apply In_nth_error in Hc; destruct Hc as [i Hk]; assert (Hi : @nth_error bits (pix out) i = Some c) by exact Hk; clear Hk; assert (HL : (i < length (pix im))%nat) by (rewrite <- Lo; apply nth_error_Some; congruence).
  apply nth_error_Some in HL; destruct (nth_error (pix im) i) as [a|] eqn:Ea; [|congruence]; destruct (P i a Ea) as (d & l & c' & Sd & Sl & Qc & Nc); assert (c' = c) as -> by congruence.
  destruct (int_double 0 ltac:(lia)) as [b0 M0]; pose proof (F a (nth_error_In _ _ Ea)) as Ma.
  apply (dsub_fin _ _ _ _ _ (F bh Ih) (F bl Il)) in Sd; apply (dsub_fin _ _ _ _ _ Ma (F bl Il)) in Sl; replace (x - x)%R with 0%R in Sd, Sl by ring.
  apply (rounds_exact _ _ _ M0) in Sd, Sl; exact (dquot_zeros l d c Sl Sd Qc).
Qed.
Print Assumptions C187_constant.
Theorem C187_overflow (im out : image bits) xs lo hi : wf im -> Forall2 (fun b x => means b (Fin x)) (pix im) xs -> extremes xs lo hi -> (too_large <= hi - lo)%R -> dnormalize im (Ok out) ->
  forall i x, nth_error xs i = Some x -> exists c, nth_error (pix out) i = Some c /\ (if Rlt_dec (x - lo) too_large then means c (Fin 0) else means c NaN).
Proof.
  intros W F X T D i x Hx; assert (N : pix im <> []) by (destruct X as (I & _); intros E; rewrite E in F; inversion F; subst; destruct I).
  destruct (norm_pixels im _ W N D) as (bh & bl & o & _ & _ & Ih & Il & O & Q & Do & Lo & P); injection Q as <-.
  destruct (extremes_of im xs lo hi bl bh F X Ih Il O) as [Ml Mh].
  assert (A : exists a, nth_error (pix im) i = Some a /\ means a (Fin x)).
  { clear - F Hx; revert i Hx; induction F as [|a z la lx M F IH]; intros [|i] H; try discriminate; [injection H as <-; exists a; auto|exact (IH i H)]. }
  destruct A as (a & Na & Ma); destruct (P i a Na) as (d & l & c & Sd & Sl & Qc & Nc); exists c; split; [exact Nc|].
  assert (B : (lo <= x <= hi)%R) by (destruct X as (_ & _ & B); rewrite Forall_forall in B; apply B; eapply nth_error_In, Hx).
  apply (dsub_fin _ _ _ _ _ Mh Ml) in Sd; apply (dsub_fin _ _ _ _ _ Ma Ml) in Sl.
  assert (T0 : (0 < too_large)%R) by (pose proof (means_not_large _ _ Ml) as K; pose proof (Rabs_pos lo); lra).
  assert (Md : exists s, means d (Inf s)) by (unfold rounds in Sd; destruct (Rlt_dec (Rabs (hi - lo)) too_large) as [S|S]; [rewrite Rabs_right in S by lra; lra|eauto]).
  destruct Md as [s Md]; destruct (dquot_inf _ _ _ _ Md Qc) as [Q0 Q1]; unfold rounds in Sl; rewrite (Rabs_right (x - lo)) in Sl by lra.
  destruct (Rlt_dec (x - lo) too_large) as [S|S]; [destruct Sl as (r & Mr & _); eapply Q0, Mr|eapply Q1, Sl].
Qed.
Print Assumptions C187_overflow.
Theorem C187_nan (im out : image bits) i a : wf im -> dnormalize im (Ok out) -> nth_error (pix im) i = Some a -> means a NaN ->
  (exists c, nth_error (pix out) i = Some c /\ means c NaN) /\ (i = 0%nat -> Forall (fun c => means c NaN) (pix out)).
Proof.
  intros W D Na Ma; assert (N : pix im <> []) by (intros E; rewrite E in Na; destruct i; discriminate).
  destruct (norm_pixels im _ W N D) as (bh & bl & o & E1 & E2 & Ih & Il & O & Q & Do & Lo & P); injection Q as <-.
  assert (SN : forall a b c, means a NaN -> dsub a b c -> means c NaN).
  { intros p q r Mp (v & w & Mv & Mw & R); rewrite (means_inj _ _ _ Mv Mp) in R; exact R. }
  split.
  - destruct (P i a Na) as (d & l & c & Sd & Sl & Qc & Nc); exists c; split; [exact Nc|]; eapply dquot_nan; [left; eapply SN; eauto|exact Qc].
  - intros ->; unfold im_max, vmax in E1; destruct (pix im) as [|p r] eqn:E; [congruence|]; injection Na as ->.
    assert (K : std_isnan a = true) by (apply isnan_meaning; pose proof (means_pattern _ _ Ma) as Pa; apply means_meaning in Ma; auto).
    assert (G : fold_left (fun m x => if dlt m x then x else m) r a = a) by (clear - K; induction r as [|q r IH]; [reflexivity|cbn [fold_left]; unfold dlt at 2; rewrite K; exact IH]).
    rewrite G in E1; injection E1 as <-; apply Forall_forall; intros c Hc; apply In_nth_error in Hc; destruct Hc as [j Hk]; assert (Hj : @nth_error bits (pix out) j = Some c) by exact Hk; clear Hk.
    assert (HL : (j < length (a :: r))%nat) by (rewrite <- Lo; apply nth_error_Some; congruence); apply nth_error_Some in HL; destruct (nth_error (a :: r) j) as [q|] eqn:Eq; [|congruence].
    destruct (P j q Eq) as (d & l & c' & Sd & Sl & Qc & Nc); assert (c' = c) as -> by congruence; eapply dquot_nan; [right; eapply SN; eauto|exact Qc].
Qed.
Print Assumptions C187_nan.

(** the order is not kept strictly: a pixel above the least one can become 0 as well *)
Theorem C187_strict_refuted : exists im out xs ys x y, wf im /\ dnormalize im (Ok out) /\
  Forall2 (fun b x => means b (Fin x)) (pix im) xs /\ Forall2 (fun b y => means b (Fin y)) (pix out) ys /\
  nth_error xs 0 = Some x /\ nth_error xs 1 = Some y /\ (x < y)%R /\ nth_error ys 0 = Some 0%R /\ nth_error ys 1 = Some 0%R.
Proof.
  assert (Z0 : means (pat 0) (Fin 0)) by (apply literal_fin; [vm_compute; reflexivity|]; replace (key_units (pat 0)) with 0 by (vm_compute; reflexivity); ring).
  pose (four := 4616189618054758400 : bits); pose (one := 4607182418800017408 : bits).
  exists (mkImage [3%nat] [pat 0; 1; four]), (mkImage [3%nat] [pat 0; pat 0; pat one]), [0%R; (IZR (key_units 1) * unit_)%R; (IZR (key_units four) * unit_)%R],
    [0%R; 0%R; (IZR (key_units (pat one)) * unit_)%R], 0%R, (IZR (key_units 1) * unit_)%R.
  split; [reflexivity|]; split.
  { unfold dnormalize; replace (im_max dlt (mkImage [3%nat] [pat 0; 1; four])) with (Ok four) by (vm_compute; reflexivity); replace (im_min dlt (mkImage [3%nat] [pat 0; 1; four])) with (Ok (pat 0)) by (vm_compute; reflexivity).
    exists (mkImage [3%nat] [pat four; pat four; pat four]), (mkImage [3%nat] [pat 0; pat 1; pat four]); unfold combined, set_all_value; cbn [dims pix map]; rewrite size_eqb_same.
    split; [|split].
    - exists [pat four; pat four; pat four]; split; [reflexivity|]; split; [reflexivity|].
      intros [|[|[|[|i]]]] p q A B; try discriminate; injection A as <-; injection B as <-; eexists; (split; [reflexivity|apply dsub_literal; vm_compute; reflexivity]).
    - exists [pat 0; pat 1; pat four]; split; [reflexivity|]; split; [reflexivity|].
      intros [|[|[|[|i]]]] p q A B; try discriminate; injection A as <-; injection B as <-; eexists; (split; [reflexivity|apply dsub_literal; vm_compute; reflexivity]).
    - exists [pat 0; pat 0; pat one]; split; [reflexivity|]; split; [reflexivity|].
      intros [|[|[|[|i]]]] p q A B; try discriminate; injection A as <-; injection B as <-; eexists; (split; [reflexivity|apply dquot_div, ddiv_literal; vm_compute; reflexivity]). }
  split; [repeat constructor; [exact Z0|apply finite_double_means; vm_compute; reflexivity|apply finite_double_means; vm_compute; reflexivity]|].
  split; [repeat constructor; [exact Z0|exact Z0|apply finite_double_means; vm_compute; reflexivity]|].
  split; [reflexivity|]; split; [reflexivity|]; split; [|split; reflexivity].
  apply Rmult_lt_0_compat; [apply IZR_lt; vm_compute; reflexivity|apply unit_pos].
Qed.
Print Assumptions C187_strict_refuted.
(** finite pixels that differ do not always give numbers from 0 to 1 *)
Theorem C187_range_refuted : exists im out xs lo hi, wf im /\ dnormalize im (Ok out) /\ Forall2 (fun b x => means b (Fin x)) (pix im) xs /\ extremes xs lo hi /\ (lo < hi)%R /\
  exists c, In c (pix out) /\ means c NaN.
Proof.
  pose (h := (IZR (2 ^ 2098 - 2 ^ 2045) * unit_)%R).
  assert (G : means greatest (Fin h)) by (apply literal_fin; [vm_compute; reflexivity|unfold h; f_equal; f_equal; vm_compute; reflexivity]).
  assert (G' : means (greatest + 2 ^ 63) (Fin (- h))).
  { apply literal_fin; [vm_compute; reflexivity|]; unfold h; replace (key_units (greatest + 2 ^ 63)) with (- (2 ^ 2098 - 2 ^ 2045)) by (vm_compute; reflexivity); rewrite opp_IZR; ring. }
  assert (T : (too_large < h + h)%R).
  { unfold h; rewrite too_large_units, <- Rmult_plus_distr_r, <- plus_IZR; apply Rmult_lt_compat_r; [apply unit_pos|]; apply IZR_lt; vm_compute; reflexivity. }
  assert (H0 : (0 < h)%R) by (pose proof (means_not_large _ _ G) as K; pose proof (Rabs_pos h); lra).
  pose (im := mkImage [2%nat] [greatest; greatest + 2 ^ 63]).
  assert (F : Forall2 (fun b x => means b (Fin x)) (pix im) [h; (- h)%R]) by (repeat constructor; auto).
  assert (X : extremes [h; (- h)%R] (- h) h) by (split; [cbn; auto|]; split; [cbn; auto|]; repeat constructor; lra).
  destruct (C187_total im) as ((o & D) & H); [reflexivity|repeat constructor; eapply means_pattern; eauto|].
  destruct (H o D) as (_ & H'); destruct H' as (out & -> & Do & Wo); [discriminate|].
  exists im, out, [h; (- h)%R], (- h)%R, h; split; [reflexivity|]; split; [exact D|]; split; [exact F|]; split; [exact X|]; split; [lra|].
  destruct (C187_overflow im out _ _ _ eq_refl F X ltac:(lra) D 0%nat h eq_refl) as (c & Nc & M); exists c; split; [eapply nth_error_In, Nc|].
  destruct (Rlt_dec (h - - h) too_large); [lra|exact M].
Qed.
Print Assumptions C187_range_refuted.
(** a picture of 0.9, 3/4 and 2^53 meets the hypotheses, and has a result *)
Example C187_case : let im := mkImage [3%nat] [nine_tenths; three_quarters; p53] in
  exists xs lo hi out, wf im /\ Forall2 (fun b x => means b (Fin x)) (pix im) xs /\ extremes xs lo hi /\ (lo < hi)%R /\ (hi - lo < too_large)%R /\ dnormalize im (Ok out).
Proof.
  intros im; pose (v := fun b => (IZR (key_units b) * unit_)%R); pose proof unit_pos as U.
  assert (F : forall b, In b (pix im) -> means b (Fin (v b))) by (intros b [<-|[<-|[<-|[]]]]; apply finite_double_means; vm_compute; reflexivity).
  assert (L1 : (v three_quarters < v nine_tenths)%R) by (apply Rmult_lt_compat_r; [exact U|apply IZR_lt; vm_compute; reflexivity]).
  assert (L2 : (v nine_tenths < v p53)%R) by (apply Rmult_lt_compat_r; [exact U|apply IZR_lt; vm_compute; reflexivity]).
  assert (L0 : (0 < v three_quarters)%R) by (apply Rmult_lt_0_compat; [apply IZR_lt; vm_compute; reflexivity|exact U]).
  assert (Fx : Forall2 (fun b x => means b (Fin x)) (pix im) [v nine_tenths; v three_quarters; v p53]) by (repeat constructor; apply F; cbn; auto).
  destruct (C187_total im) as ((o & D) & H); [reflexivity|apply Forall_forall; intros b Hb; eapply means_pattern, F, Hb|].
  destruct (H o D) as (_ & H'); destruct H' as (out & -> & _); [discriminate|].
  exists [v nine_tenths; v three_quarters; v p53], (v three_quarters), (v p53), out; split; [reflexivity|]; split; [exact Fx|].
  split; [split; [cbn; auto|split; [cbn; auto|repeat constructor; lra]]|]; split; [lra|]; split; [|exact D].
  pose proof (means_not_large _ _ (F p53 ltac:(cbn; auto))) as K; rewrite Rabs_right in K by lra; lra.
Qed.
