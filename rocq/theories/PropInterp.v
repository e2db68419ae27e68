(** PropInterp.v - interpolation (C48, C78). *)
From Coq Require Import QArith Qround Qabs Lqa Lia ZifyBool ZifyNat.
From Verif Require Import Base ImageModel ImageFacts GeomModel InterpModel InterpProofs.
Open Scope nat_scope.

(** floating elements: no conversion *)
Definition bilinear_q := bilinear_interpolate (fun v : Q => v) (fun v => v) 0%Q.
Definition bicubic_q := bicubic_interpolate (fun v : Q => v) (fun v => v) 0%Q.
(** integral elements with the range [lo, hi] *)
Definition bilinear_z (lo hi : Z) := bilinear_interpolate inject_Z (fin_int lo hi) 0%Z.
Definition bicubic_z (lo hi : Z) := bicubic_interpolate inject_Z (fin_int lo hi) 0%Z.

(** ** integer positions *)
Theorem C48_bilinear_sample im w h f i j : Repr im w h f -> i < w -> j < h ->
  exists v, bilinear_q im (qn i) (qn j) = Ok v /\ (v == f i j)%Q.
Proof. intros HR Hi Hj; apply (bilinear_sample (fun v => v) (fun v => v) 0%Q im w h f); auto. Qed.
Print Assumptions C48_bilinear_sample.

Theorem C48_bilinear_sample_int lo hi im w h f i j : Repr im w h f -> i < w -> j < h -> (lo <= f i j <= hi)%Z ->
  bilinear_z lo hi im (qn i) (qn j) = Ok (f i j).
Proof.
  intros HR Hi Hj Hf; destruct (bilinear_sample inject_Z (fin_int lo hi) 0%Z im w h f i j) as (q & E & V); auto.
  unfold bilinear_z; rewrite E; f_equal; apply fin_int_exact; auto.
Qed.
Print Assumptions C48_bilinear_sample_int.

Theorem C48_bicubic_sample im w h f i j : Repr im w h f -> i < w -> j < h ->
  exists v, bicubic_q im (qn i) (qn j) = Ok v /\ (v == f i j)%Q.
Proof. intros HR Hi Hj; apply (bicubic_sample (fun v => v) (fun v => v) 0%Q im w h f); auto. Qed.
Print Assumptions C48_bicubic_sample.

Theorem C48_bicubic_sample_int lo hi im w h f i j : Repr im w h f -> i < w -> j < h -> (lo <= f i j <= hi)%Z ->
  bicubic_z lo hi im (qn i) (qn j) = Ok (f i j).
Proof.
  intros HR Hi Hj Hf; destruct (bicubic_sample inject_Z (fin_int lo hi) 0%Z im w h f i j) as (q & E & V); auto.
  unfold bicubic_z; rewrite E; f_equal; apply fin_int_exact; auto.
Qed.
Print Assumptions C48_bicubic_sample_int.

(** ** constants, and more generally every affine image, are reproduced at every position inside *)
Theorem C48_bilinear_affine im w h f x y a b c : Repr im w h f -> (0 <= x <= qn w - 1)%Q -> (0 <= y <= qn h - 1)%Q ->
  (forall i j, i < w -> j < h -> (f i j == a + b * qn i + c * qn j)%Q) ->
  exists v, bilinear_q im x y = Ok v /\ (v == a + b * x + c * y)%Q.
Proof. intros HR Hx Hy HA; apply (bilinear_affine (fun v => v) (fun v => v) 0%Q im w h f); auto; split; auto. Qed.
Print Assumptions C48_bilinear_affine.

Theorem C48_bicubic_affine im w h f x y a b c : Repr im w h f -> (0 <= x <= qn w - 1)%Q -> (0 <= y <= qn h - 1)%Q ->
  (forall i j, i < w -> j < h -> (f i j == a + b * qn i + c * qn j)%Q) ->
  exists v, bicubic_q im x y = Ok v /\ (v == a + b * x + c * y)%Q.
Proof. intros HR Hx Hy HA; apply (bicubic_affine (fun v => v) (fun v => v) 0%Q im w h f); auto; split; auto. Qed.
Print Assumptions C48_bicubic_affine.

Theorem C48_constant im w h f x y c : Repr im w h f -> (0 <= x <= qn w - 1)%Q -> (0 <= y <= qn h - 1)%Q ->
  (forall i j, i < w -> j < h -> f i j = c) ->
  (exists v, bilinear_q im x y = Ok v /\ (v == c)%Q) /\ (exists v, bicubic_q im x y = Ok v /\ (v == c)%Q).
Proof.
  intros HR Hx Hy HC.
  assert (HA : forall i j, i < w -> j < h -> (f i j == c + 0 * qn i + 0 * qn j)%Q) by (intros i j Hi Hj; rewrite HC by auto; ring).
  destruct (C48_bilinear_affine im w h f x y c 0 0 HR Hx Hy HA) as (v & E & V).
  destruct (C48_bicubic_affine im w h f x y c 0 0 HR Hx Hy HA) as (v' & E' & V').
  split; [exists v | exists v']; split; auto; [rewrite V | rewrite V']; ring.
Qed.
Print Assumptions C48_constant.

Theorem C48_constant_int lo hi im w h f x y c : Repr im w h f -> (0 <= x <= qn w - 1)%Q -> (0 <= y <= qn h - 1)%Q ->
  (forall i j, i < w -> j < h -> f i j = c) -> (lo <= c <= hi)%Z ->
  bilinear_z lo hi im x y = Ok c /\ bicubic_z lo hi im x y = Ok c.
Proof.
  intros HR Hx Hy HC Hc.
  assert (HA : forall i j, i < w -> j < h -> (inject_Z (f i j) == inject_Z c + 0 * qn i + 0 * qn j)%Q) by (intros i j Hi Hj; rewrite HC by auto; ring).
  destruct (bilinear_affine inject_Z (fin_int lo hi) 0%Z im w h f x y _ _ _ HR (conj Hx Hy) HA) as (q & E & V).
  destruct (bicubic_affine inject_Z (fin_int lo hi) 0%Z im w h f x y _ _ _ HR (conj Hx Hy) HA) as (q' & E' & V').
  unfold bilinear_z, bicubic_z; rewrite E, E'; split; f_equal; apply fin_int_exact; auto; [rewrite V | rewrite V']; ring.
Qed.
Print Assumptions C48_constant_int.

(** ** the bicubic value in full *)
(** Keys' cubic convolution kernel with parameter -1/2 *)
Definition keys (t : Q) : Q :=
  let a := Qabs t in
  if Qle_bool a 1 then ((3 # 2) * a * a * a - (5 # 2) * a * a + 1)%Q
  else if Qle_bool a 2 then ((-1 # 2) * a * a * a + (5 # 2) * a * a - 4 * a + 2)%Q
  else 0%Q.
(** g 0 + ... + g (n - 1) *)
Definition qsum (n : nat) (g : nat -> Q) : Q := fold_right Qplus 0%Q (map g (seq 0 n)).

Lemma keys_near t : (-1 <= t <= 1)%Q -> (keys t == P1 (Qabs t))%Q.
Proof. intros H. unfold keys. replace (Qle_bool (Qabs t) 1) with true; [unfold P1; reflexivity|]. symmetry. apply Qle_bool_iff, Qabs_Qle_condition; auto. Qed.
Lemma keys_mid t : (1 <= Qabs t <= 2)%Q -> (keys t == P2 (Qabs t))%Q.
Proof.
  intros [L U]. unfold keys. destruct (Qle_bool (Qabs t) 1) eqn:E.
  - apply Qle_bool_iff in E. assert (A : (Qabs t == 1)%Q) by lra. unfold P2. rewrite A. reflexivity.
  - replace (Qle_bool (Qabs t) 2) with true by (symmetry; apply Qle_bool_iff; auto). unfold P2. reflexivity.
Qed.
Lemma keys_far t : (2 <= Qabs t)%Q -> (keys t == 0)%Q.
Proof.
  intros L. unfold keys. destruct (Qle_bool (Qabs t) 1) eqn:E; [apply Qle_bool_iff in E; lra|].
  destruct (Qle_bool (Qabs t) 2) eqn:E2; [|reflexivity]. apply Qle_bool_iff in E2. assert (A : (Qabs t == 2)%Q) by lra. rewrite A. reflexivity.
Qed.

Lemma qsum_range a n g : (fold_right Qplus 0 (map g (seq a n)) == qsum n (fun i => g (a + i)%nat))%Q.
Proof.
  unfold qsum. revert a g. induction n as [|n IH]; intros a g; [reflexivity|]. cbn [seq map fold_right].
  rewrite IH, <- seq_shift, map_map. replace (a + 0) with a by lia. cbn [Nat.add].
  assert (E : map (fun x => g (a + S x)) (seq 0 n) = map (fun i => g (S (a + i))) (seq 0 n)) by (apply map_ext; intros; f_equal; lia).
  rewrite E. reflexivity.
Qed.
Lemma qsum_app l1 l2 : (fold_right Qplus 0 (l1 ++ l2) == fold_right Qplus 0 l1 + fold_right Qplus 0 l2)%Q.
Proof. induction l1 as [|a l IH]; cbn [app fold_right]; [ring|]. rewrite IH. ring. Qed.
Lemma qsum_zero {I} (l : list I) g : (forall i, In i l -> (g i == 0)%Q) -> (fold_right Qplus 0 (map g l) == 0)%Q.
Proof. induction l as [|i l IH]; intros H; [reflexivity|]. cbn [map fold_right]. rewrite (H i), IH by (auto with datatypes). ring. Qed.

Lemma tap_sum n (g : nat -> Q) x a t : a + 3 < n -> (x == qn a + 1 + t)%Q -> (0 <= t < 1)%Q ->
  (qsum n (fun i => g i * keys (x - qn i)) == tap4 (fun i => g (a + i)%nat) t)%Q.
Proof.
  intros Ha Hx Ht. unfold qsum. replace n with (a + (4 + (n - a - 4))) by lia.
  rewrite !seq_app, !map_app, !qsum_app.
  assert (S2 : forall k, (qn (a + k) == qn a + qn k)%Q) by (intros k; unfold qn; rewrite Nat2Z.inj_add, inject_Z_plus; reflexivity).
  rewrite (qsum_zero (seq 0 a)), (qsum_zero (seq (0 + a + 4) (n - a - 4))).
  - cbn [Nat.add seq map fold_right]. unfold tap4.
    replace (S a) with (a + 1) by lia. replace (S (a + 1)) with (a + 2) by lia. replace (S (a + 2)) with (a + 3) by lia. replace (a + 0) with a by lia.
    assert (A0 : (Qabs (x - qn a) == 1 + t)%Q) by (rewrite Qabs_pos; lra).
    pose proof (S2 1) as E1. pose proof (S2 2) as E2. pose proof (S2 3) as E3.
    change (qn 1) with 1%Q in E1. change (qn 2) with 2%Q in E2. change (qn 3) with 3%Q in E3.
    assert (A1 : (Qabs (x - qn (a + 1)) == t)%Q) by (rewrite Qabs_pos; lra).
    assert (A2 : (Qabs (x - qn (a + 2)) == 1 - t)%Q) by (rewrite Qabs_neg; lra).
    assert (A3 : (Qabs (x - qn (a + 3)) == 2 - t)%Q) by (rewrite Qabs_neg; lra).
    rewrite (keys_mid (x - qn a)), (keys_near (x - qn (a + 1))), (keys_near (x - qn (a + 2))), (keys_mid (x - qn (a + 3))) by (try rewrite A0; try rewrite A3; lra).
    unfold P1, P2. rewrite A0, A1, A2, A3. ring.
  - intros i Hi. apply in_seq in Hi. rewrite keys_far; [ring|]. assert (L : (qn (a + 4) <= qn i)%Q) by (apply qn_le; lia).
    rewrite (S2 4) in L. change (qn 4) with 4%Q in L. rewrite Qabs_neg; lra.
  - intros i Hi. apply in_seq in Hi. rewrite keys_far; [ring|]. assert (L : (qn (i + 1) <= qn a)%Q) by (apply qn_le; lia).
    rewrite qn_S in L. rewrite Qabs_pos; lra.
Qed.

Lemma qsum_ext n g g' : (forall i, i < n -> (g i == g' i)%Q) -> (qsum n g == qsum n g')%Q.
Proof.
  unfold qsum. intros H. assert (G : forall l, (forall i, In i l -> i < n) -> (fold_right Qplus 0 (map g l) == fold_right Qplus 0 (map g' l))%Q).
  { induction l as [|i l IH]; intros Hl; [reflexivity|]. cbn [map fold_right]. rewrite (H i), IH by (auto with datatypes). reflexivity. }
  apply G. intros i Hi. apply in_seq in Hi. lia.
Qed.

Lemma bicubic_formula {A} (conv : A -> Q) fin zero im w h f x y : Repr im w h f -> (1 <= x < qn w - 2)%Q -> (1 <= y < qn h - 2)%Q ->
  exists q, bicubic_interpolate conv fin zero im x y = Ok (fin q) /\
    (q == qsum h (fun j => qsum w (fun i => conv (f i j) * keys (x - qn i)) * keys (y - qn j)))%Q.
Proof.
  intros HR Hx Hy. destruct (bicubic_deep conv fin zero im w h f x y HR (conj Hx Hy)) as (a & b & tx & ty & q & Ha & Hb & (Ex & Tx & Ey & Ty) & E & V).
  exists q; split; auto. rewrite V. rewrite (tap_sum h _ y b ty Hb Ey Ty). apply (tap4_ext conv fin zero). intros j Hj.
  symmetry. exact (tap_sum w (fun i => conv (f i (b + j)%nat)) x a tx Ha Ex Tx).
Qed.

(** Away from the border the bicubic value is the sum over all pixels of the pixel times the kernel at its two distances. *)
Theorem C48_bicubic_formula im w h f x y : Repr im w h f -> (1 <= x < qn w - 2)%Q -> (1 <= y < qn h - 2)%Q ->
  exists v, bicubic_q im x y = Ok v /\ (v == qsum h (fun j => qsum w (fun i => f i j * keys (x - qn i)) * keys (y - qn j)))%Q.
Proof. intros HR Hx Hy. apply (bicubic_formula (fun v => v) (fun v => v) 0%Q im w h f x y HR Hx Hy). Qed.
Print Assumptions C48_bicubic_formula.

(** the integer shown for a rational value: cut to the range, fractions dropped towards zero *)
Definition shown_int (lo hi : Z) (q : Q) (v : Z) : Prop :=
  ((inject_Z hi <= q)%Q -> v = hi) /\ ((q <= inject_Z lo)%Q -> v = lo) /\
  ((inject_Z lo <= q <= inject_Z hi)%Q -> (0 <= q -> inject_Z v <= q < inject_Z v + 1)%Q /\ (q <= 0 -> inject_Z v - 1 < q <= inject_Z v)%Q).

Lemma trunc_between q : ((0 <= q -> inject_Z (trunc q) <= q < inject_Z (trunc q) + 1) /\ (q <= 0 -> inject_Z (trunc q) - 1 < q <= inject_Z (trunc q)))%Q.
Proof.
  destruct q as [n d]. unfold trunc; cbn [Qnum Qden]. unfold Qle, Qlt; cbn [Qnum Qden inject_Z].
  pose proof (Z.quot_rem' n (Zpos d)) as E. split; intros H.
  - pose proof (Z.rem_bound_pos n (Zpos d) ltac:(lia) ltac:(lia)).
    split; [nia|]. unfold Qplus, inject_Z; cbn [Qnum Qden]. nia.
  - assert (Hn : (n <= 0)%Z) by (unfold Qle in H; cbn [Qnum Qden] in H; lia).
    assert (Hr : (- Zpos d < Z.rem n (Zpos d) <= 0)%Z).
    { pose proof (Z.rem_bound_pos (- n) (Zpos d) ltac:(lia) ltac:(lia)) as B. rewrite Z.rem_opp_l' in B. lia. }
    split; [|nia]. unfold Qminus, Qplus, Qopp, inject_Z; cbn [Qnum Qden]. nia.
Qed.

Lemma fin_int_shown lo hi q : (lo <= hi)%Z -> shown_int lo hi q (fin_int lo hi q).
Proof.
  intros H. unfold shown_int, fin_int. assert (Hq : (inject_Z lo <= inject_Z hi)%Q) by (rewrite <- Zle_Qle; auto).
  destruct (Qltb (inject_Z hi) q) eqn:E1; [apply Qltb_lt in E1|apply Qltb_ge in E1].
  - split; [auto|]. split; intros; exfalso; lra.
  - destruct (Qltb q (inject_Z lo)) eqn:E2; [apply Qltb_lt in E2|apply Qltb_ge in E2].
    + split; [intros; exfalso; lra|]. split; [auto|]. intros; exfalso; lra.
    + split; [|split].
      * intros. apply trunc_Z. lra.
      * intros. apply trunc_Z. lra.
      * intros _. apply trunc_between.
Qed.

Lemma shown_int_comp lo hi q q' v : (q == q')%Q -> shown_int lo hi q v -> shown_int lo hi q' v.
Proof. unfold shown_int. intros E (A & B & C). split; [intros; apply A; lra|]. split; [intros; apply B; lra|]. intros. destruct C as [C1 C2]; [lra|]. split; intros; rewrite <- E; [apply C1|apply C2]; lra. Qed.

Theorem C48_bicubic_formula_int lo hi im w h f x y : (lo <= hi)%Z -> Repr im w h f -> (1 <= x < qn w - 2)%Q -> (1 <= y < qn h - 2)%Q ->
  exists v, bicubic_z lo hi im x y = Ok v /\
    shown_int lo hi (qsum h (fun j => qsum w (fun i => inject_Z (f i j) * keys (x - qn i)) * keys (y - qn j)))%Q v.
Proof.
  intros H HR Hx Hy. destruct (bicubic_formula inject_Z (fin_int lo hi) 0%Z im w h f x y HR Hx Hy) as (q & E & V).
  exists (fin_int lo hi q); split; auto. eapply shown_int_comp; [exact V|]. apply fin_int_shown; auto.
Qed.
Print Assumptions C48_bicubic_formula_int.

(** ** bilinear values lie between the pixels at a distance below one *)
Theorem C48_between im w h f x y lo hi : Repr im w h f -> (0 <= x <= qn w - 1)%Q -> (0 <= y <= qn h - 1)%Q ->
  (forall i j, i < w -> j < h -> (-1 < x - qn i < 1)%Q -> (-1 < y - qn j < 1)%Q -> (lo <= f i j <= hi)%Q) ->
  exists v, bilinear_q im x y = Ok v /\ (lo <= v <= hi)%Q.
Proof. intros HR Hx Hy Hb; apply (bilinear_between (fun v => v) (fun v => v) 0%Q im w h f); auto; split; auto. Qed.
Print Assumptions C48_between.

Theorem C48_between_int tlo thi im w h f x y lo hi : Repr im w h f -> (0 <= x <= qn w - 1)%Q -> (0 <= y <= qn h - 1)%Q ->
  (tlo <= lo)%Z -> (lo <= hi)%Z -> (hi <= thi)%Z ->
  (forall i j, i < w -> j < h -> (-1 < x - qn i < 1)%Q -> (-1 < y - qn j < 1)%Q -> (lo <= f i j <= hi)%Z) ->
  exists v, bilinear_z tlo thi im x y = Ok v /\ (lo <= v <= hi)%Z.
Proof.
  intros HR Hx Hy H1 H2 H3 Hb.
  destruct (bilinear_between inject_Z (fin_int tlo thi) 0%Z im w h f x y (inject_Z lo) (inject_Z hi) HR (conj Hx Hy)) as (q & E & V).
  - intros i j Hi Hj Dx Dy; rewrite <- !Zle_Qle; auto.
  - exists (fin_int tlo thi q); split; auto.
    pose proof (fin_int_bounds tlo thi lo hi q); lia.
Qed.
Print Assumptions C48_between_int.

(** ** outside the image the result is zero, and no position makes either interpolator fail *)
Theorem C48_outside im w h f x y : Repr im w h f -> (x < 0 \/ qn w - 1 < x \/ y < 0 \/ qn h - 1 < y)%Q ->
  bilinear_q im x y = Ok 0%Q /\ bicubic_q im x y = Ok 0%Q.
Proof.
  intros HR HO.
  assert (HN : ~ inside w h x y) by (unfold inside; intros (A & B); destruct HO as [O|[O|[O|O]]]; lra).
  assert (HD : ~ deep w h x y) by (unfold deep; intros (A & B); apply HN; unfold inside; lra).
  assert (E : bilinear_q im x y = Ok 0%Q) by (apply (bilinear_outside _ _ _ im w h f); auto).
  split; auto; unfold bicubic_q; rewrite (bicubic_border _ _ _ im w h f x y HR HD); auto.
Qed.
Print Assumptions C48_outside.

Theorem C48_total {A} conv (fin : Q -> A) zero im w h f x y : Repr im w h f ->
  (exists v, bilinear_interpolate conv fin zero im x y = Ok v) /\ (exists v, bicubic_interpolate conv fin zero im x y = Ok v).
Proof. intros HR; split; [eapply bilinear_total | eapply bicubic_total]; eauto. Qed.
Print Assumptions C48_total.

(** ** bicubic resizing, floating elements: output pixels that land on a source pixel take its value; constants stay *)
Theorem C48_resize_sample sg im w h f width height : sched_ok sg -> Repr im w h f -> 0 < w -> 0 < h ->
  exists o g, copyResizeBicubic cubic_q (fun v => Ok v) 0%Q sg im width height = Ok o /\ Repr o width height g /\
    (forall x y i j, x < width -> y < height -> x * w = i * width -> y * h = j * height -> (g x y == f i j)%Q) /\
    (forall c, (forall i j, i < w -> j < h -> f i j = c) -> forall x y, x < width -> y < height -> (g x y == c)%Q).
Proof.
  intros Hs HR Hw Hh.
  destruct (resize_spec cubic_q (fun v => Ok v) 0%Q sg im w h f width height
    (fun x y => match bicubicPolate cubic_q (fun v => Ok v) 0%Q (around w h width height f x y) (frac_pos x w width) (frac_pos y h height) with Ok v => v | _ => 0%Q end) Hs HR Hw Hh) as (o & E & Ro); [reflexivity|].
  eexists o, _; split; [exact E|]; split; [exact Ro|]; split.
  - intros x y i j Hx Hy Ex Ey; unfold bicubicPolate; cbv beta zeta iota.
    assert (Fx := frac_pos_zero x w width i ltac:(lia) Ex); assert (Fy := frac_pos_zero y h height j ltac:(lia) Ey).
    assert (C0 : forall a b c d t, (t == 0)%Q -> (cubic_q a b c d t == b)%Q) by (intros a b c d t Ht; unfold cubic_q; rewrite Ht; ring).
    rewrite C0, C0 by auto.
    rewrite around_nth by lia; rewrite Ex, Ey, !Nat.div_mul by lia.
    cbn [Nat.modulo Nat.div Nat.divmod fst snd Nat.sub]; rewrite !Z.add_0_r.
    assert (i < w) by nia; assert (j < h) by nia; rewrite !tap_in by auto; reflexivity.
  - intros c HC x y Hx Hy; unfold bicubicPolate; cbv beta zeta iota.
    assert (CC : forall a b e d t, (a == c -> b == c -> e == c -> d == c -> cubic_q a b e d t == c)%Q) by (intros a b e d t Ha Hb He Hd; unfold cubic_q; rewrite Ha, Hb, He, Hd; ring).
    assert (N : forall k, k < 16 -> (nth k (around w h width height f x y) 0 == c)%Q).
    { intros k Hk; rewrite around_nth by auto; rewrite HC by (apply tap_lt; auto); reflexivity. }
    apply CC; apply CC; apply N; lia.
Qed.
Print Assumptions C48_resize_sample.

(** so resizing to the same size is the identity *)
Theorem C48_resize_same_size sg im w h f : sched_ok sg -> Repr im w h f -> 0 < w -> 0 < h ->
  exists o g, copyResizeBicubic cubic_q (fun v => Ok v) 0%Q sg im w h = Ok o /\ Repr o w h g /\
    forall x y, x < w -> y < h -> (g x y == f x y)%Q.
Proof.
  intros Hs HR Hw Hh; destruct (C48_resize_sample sg im w h f w h Hs HR Hw Hh) as (o & g & E & Ro & P & _).
  exists o, g; split; auto.
Qed.
Print Assumptions C48_resize_same_size.

(** ** bicubic resizing, integral elements: the fraction is converted to the element type before it is used, so no interpolation
    takes place at all: the result is the source pixel at or before the position.  Exact only up to 2^24, the precision of float. *)
Theorem C78_integral_partial lo hi sg im w h f width height : sched_ok sg -> Repr im w h f -> 0 < w -> 0 < h ->
  (forall i j, i < w -> j < h -> (lo <= f i j <= hi)%Z /\ (Z.abs (f i j) <= 2 ^ 24)%Z) ->
  exists o, copyResizeBicubic cubic_z (polate_fin lo hi) 0%Z sg im width height = Ok o /\
    Repr o width height (fun x y => f (x * w / width) (y * h / height)).
Proof.
  intros Hs HR Hw Hh Hf; apply (resize_spec cubic_z (polate_fin lo hi) 0%Z sg im w h f); auto.
  intros x y Hx Hy; unfold bicubicPolate; cbv beta zeta.
  rewrite !cubic_z_frac by apply frac_pos_bounds.
  rewrite around_nth by lia; cbn [Nat.modulo Nat.div Nat.divmod fst snd Nat.sub]; rewrite !Z.add_0_r.
  assert (x * w / width < w) by (apply Nat.div_lt_upper_bound; nia).
  assert (y * h / height < h) by (apply Nat.div_lt_upper_bound; nia).
  rewrite !tap_in by auto; destruct (Hf (x * w / width) (y * h / height)); auto; apply polate_fin_small; auto.
Qed.
Print Assumptions C78_integral_partial.

(** a half-way position between the pixels 0 and 100 gets 0 instead of a value in between *)
Theorem C78_uint8_refuted : exists im o v,
  Repr im 2 1 (fun x _ => if x =? 0 then 0%Z else 100%Z) /\
  copyResizeBicubic cubic_z (polate_fin 0 255) 0%Z grid im 4 1 = Ok o /\ at_ o [1; 0] = Ok v /\ v = 0%Z /\
  (exists oq g, copyResizeBicubic cubic_q (fun v => Ok v) 0%Q grid (mkImage [2; 1] [0; 100]%Q) 4 1 = Ok oq /\ at_ oq [1; 0] = Ok g /\ (g == 50)%Q).
Proof.
  exists (mkImage [2; 1] [0; 100]%Z); do 2 eexists; split; [|split; [|split; [|split]]].
  - split; [|split]; auto; intros x y Hx Hy; replace y with 0 by lia; assert (C : x = 0 \/ x = 1) by lia; destruct C as [-> | ->]; reflexivity.
  - vm_compute; reflexivity.
  - reflexivity.
  - reflexivity.
  - do 2 eexists; split; [vm_compute; reflexivity|]; split; [reflexivity | reflexivity].
Qed.
Print Assumptions C78_uint8_refuted.

(** int elements: resizing to the same size changes 16777217 and is undefined at the largest int *)
Theorem C78_int32_refuted :
  (exists o, copyResizeBicubic cubic_z (polate_fin (- 2 ^ 31) (2 ^ 31 - 1)) 0%Z grid (mkImage [1; 1] [16777217%Z]) 1 1 = Ok o /\ at_ o [0; 0] = Ok 16777216%Z) /\
  copyResizeBicubic cubic_z (polate_fin (- 2 ^ 31) (2 ^ 31 - 1)) 0%Z grid (mkImage [1; 1] [(2 ^ 31 - 1)%Z]) 1 1 = UB.
Proof. split; [eexists; split; vm_compute; reflexivity | vm_compute; reflexivity]. Qed.
Print Assumptions C78_int32_refuted.

(** the cubic of the resizing does not reproduce a ramp (the interpolator above does) *)
Theorem C78_ramp_refuted : exists im o v,
  Repr im 8 1 (fun x _ => qn x) /\ copyResizeBicubic cubic_q (fun v => Ok v) 0%Q grid im 32 1 = Ok o /\
  at_ o [13; 0] = Ok v /\ ~ (v == 13 / 4)%Q.
Proof.
  exists (mkImage [8; 1] (map qn (seq 0 8))); do 2 eexists; split; [|split; [|split]].
  - split; [|split]; auto; intros x y Hx Hy; replace y with 0 by lia.
    do 8 (destruct x as [|x]; [reflexivity|]); lia.
  - vm_compute; reflexivity.
  - reflexivity.
  - vm_compute; discriminate.
Qed.
Print Assumptions C78_ramp_refuted.

(** an empty source makes std::clamp's bounds cross *)
Theorem C78_empty_refuted : copyResizeBicubic cubic_z (polate_fin 0 255) 0%Z grid (mkImage [0; 0] []) 1 1 = UB.
Proof. reflexivity. Qed.
Print Assumptions C78_empty_refuted.

(** ** cases *)
Definition interp_im : image Q := mkImage [5; 4] [0; 1; 2; 3; 4; 10; 11; 12; 13; 14; 20; 21; 22; 23; 24; 30; 31; 32; 33; 34]%Q.
Example C48_affine_case : exists v u, bicubic_q interp_im (3 # 2) (5 # 4) = Ok v /\ bilinear_q interp_im (7 # 2) (1 # 4) = Ok u /\ (v == 14)%Q /\ (u == 6)%Q.
Proof. do 2 eexists; split; [vm_compute; reflexivity|]; split; [vm_compute; reflexivity|]; split; reflexivity. Qed.
Example C48_between_case : exists v, bilinear_z 0 255 (mkImage [2; 2] [10; 20; 30; 250]%Z) (1 # 3) (1 # 2) = Ok v /\ (10 <= v <= 250)%Z.
Proof. eexists; split; [vm_compute; reflexivity | lia]. Qed.
Example C48_sample_case : bicubic_z 0 255 (mkImage [5; 4] [0; 9; 2; 3; 4; 10; 1; 12; 3; 14; 20; 2; 250; 23; 4; 30; 31; 2; 33; 34]%Z) (qn 2) (qn 1) = Ok 12%Z.
Proof. reflexivity. Qed.
Example C78_case : exists o, copyResizeBicubic cubic_z (polate_fin 0 255) 0%Z grid (mkImage [3; 2] [1; 2; 3; 4; 5; 6]%Z) 5 3 = Ok o /\
  pix o = [1; 1; 2; 2; 3; 1; 1; 2; 2; 3; 4; 4; 5; 5; 6]%Z.
Proof. eexists; split; vm_compute; reflexivity. Qed.
