(** InterpProofs.v - lemmas about interpolation. *)
From Coq Require Import QArith Qround Lqa Lia ZifyBool ZifyNat.
From Verif Require Import Base ImageModel ImageFacts GeomModel InterpModel.
Open Scope nat_scope.

Lemma Qltb_lt a b : Qltb a b = true <-> (a < b)%Q.
Proof.
  unfold Qltb; rewrite Bool.negb_true_iff; split; intros H.
  - apply Qnot_le_lt; intros L; apply Qle_bool_iff in L; congruence.
  - apply Bool.not_true_iff_false; intros L; apply Qle_bool_iff in L; lra.
Qed.
Lemma Qltb_ge a b : Qltb a b = false <-> (b <= a)%Q.
Proof. unfold Qltb; rewrite Bool.negb_false_iff; apply Qle_bool_iff. Qed.
Lemma Qle_bool_false a b : Qle_bool a b = false <-> (b < a)%Q.
Proof. rewrite <- Qltb_lt; unfold Qltb; rewrite Bool.negb_true_iff; tauto. Qed.

Lemma qn_le a b : (qn a <= qn b)%Q <-> a <= b.
Proof. unfold qn; rewrite <- Zle_Qle; lia. Qed.
Lemma qn_lt a b : (qn a < qn b)%Q <-> a < b.
Proof. unfold qn; rewrite <- Zlt_Qlt; lia. Qed.
Lemma qn_S a : (qn (a + 1) == qn a + 1)%Q.
Proof. unfold qn; rewrite Nat2Z.inj_add, inject_Z_plus; reflexivity. Qed.
Lemma qn_nonneg a : (0 <= qn a)%Q.
Proof. change 0%Q with (qn 0); apply qn_le; lia. Qed.

(** the conversion to std::size_t *)
Lemma to_size_spec q : (0 <= q)%Q -> (qn (to_size q) <= q /\ q < qn (to_size q) + 1)%Q.
Proof.
  intros H; unfold to_size, qn.
  assert (F : (0 <= Qfloor q)%Z) by (change 0%Z with (Qfloor 0); apply Qfloor_resp_le; auto).
  rewrite Z2Nat.id by auto; split; [apply Qfloor_le|].
  pose proof (Qlt_floor q) as L; rewrite inject_Z_plus in L; exact L.
Qed.
Lemma to_size_comp p q : (p == q)%Q -> to_size p = to_size q.
Proof. intros H; unfold to_size; rewrite (Qfloor_comp _ _ H); auto. Qed.
Lemma to_size_qn n : to_size (qn n) = n.
Proof. unfold to_size, qn; rewrite Qfloor_Z; lia. Qed.
Lemma to_size_lt q w : (0 <= q)%Q -> (q <= qn w - 1)%Q -> to_size q < w.
Proof.
  intros H1 H2; destruct (to_size_spec q H1) as [L U].
  assert ((qn (to_size q) < qn w)%Q) by lra; apply qn_lt; auto.
Qed.

(** truncation *)
Lemma trunc_Z z q : (q == inject_Z z)%Q -> trunc q = z.
Proof.
  intros H; unfold trunc; unfold Qeq in H; cbn [inject_Z Qnum Qden] in H; rewrite Z.mul_1_r in H; rewrite H; apply Z.quot_mul; lia.
Qed.
Lemma trunc_mono_lo z q : (inject_Z z <= q)%Q -> (z <= trunc q)%Z.
Proof.
  intros H; unfold trunc; unfold Qle in H; cbn [inject_Z Qnum Qden] in H; rewrite Z.mul_1_r in H.
  rewrite <- (Z.quot_mul z (Zpos (Qden q))) by lia; apply Z.quot_le_mono; lia.
Qed.
Lemma trunc_mono_hi z q : (q <= inject_Z z)%Q -> (trunc q <= z)%Z.
Proof.
  intros H; unfold trunc; unfold Qle in H; cbn [inject_Z Qnum Qden] in H; rewrite Z.mul_1_r in H.
  rewrite <- (Z.quot_mul z (Zpos (Qden q))) by lia; apply Z.quot_le_mono; lia.
Qed.

Lemma fin_int_exact lo hi z q : (lo <= z <= hi)%Z -> (q == inject_Z z)%Q -> fin_int lo hi q = z.
Proof.
  intros Hz Hq; unfold fin_int.
  assert (L : (inject_Z lo <= inject_Z z <= inject_Z hi)%Q) by (rewrite <- !Zle_Qle; auto).
  replace (Qltb (inject_Z hi) q) with false by (symmetry; apply Qltb_ge; lra).
  replace (Qltb q (inject_Z lo)) with false by (symmetry; apply Qltb_ge; lra).
  apply trunc_Z; auto.
Qed.
Lemma fin_int_bounds lo hi a b q : (lo <= hi)%Z -> (a <= b)%Z -> (inject_Z a <= q <= inject_Z b)%Q -> (lo <= b)%Z -> (a <= hi)%Z ->
  (Z.max lo a <= fin_int lo hi q <= Z.min hi b)%Z.
Proof.
  intros H1 H2 [Ha Hb] H3 H4; unfold fin_int; destruct (Qltb (inject_Z hi) q) eqn:E1.
  - apply Qltb_lt in E1; assert ((inject_Z hi < inject_Z b)%Q) by lra; rewrite <- Zlt_Qlt in *; lia.
  - apply Qltb_ge in E1; destruct (Qltb q (inject_Z lo)) eqn:E2.
    + apply Qltb_lt in E2; assert ((inject_Z a < inject_Z lo)%Q) by lra; rewrite <- Zlt_Qlt in *; lia.
    + apply Qltb_ge in E2; pose proof (trunc_mono_lo a q Ha); pose proof (trunc_mono_hi b q Hb).
      pose proof (trunc_mono_lo lo q E2); pose proof (trunc_mono_hi hi q E1); lia.
Qed.

Section Interp.
  Context {A : Type} (conv : A -> Q) (fin : Q -> A) (zero : A).
  Notation bil := (bilinear_interpolate conv fin zero).
  Notation bic := (bicubic_interpolate conv fin zero).

  Definition inside (w h : nat) (x y : Q) : Prop := (0 <= x <= qn w - 1 /\ 0 <= y <= qn h - 1)%Q.

  Lemma bilinear_outside im w h f x y : Repr im w h f -> ~ inside w h x y -> bil im x y = Ok zero.
  Proof.
    intros HR HN; unfold bilinear_interpolate; rewrite (get_width_Repr _ _ _ _ HR), (get_height_Repr _ _ _ _ HR); cbn [bind].
    destruct (Qltb x 0) eqn:E1; auto; destruct (Qltb (qn w - 1) x) eqn:E2; auto; destruct (Qltb y 0) eqn:E3; auto; destruct (Qltb (qn h - 1) y) eqn:E4; auto.
    rewrite Qltb_ge in E1, E2, E3, E4; exfalso; apply HN; unfold inside; lra.
  Qed.

  (** the value inside: a double convex combination of pixels at distance below one *)
  Lemma bilinear_inside im w h f x y : Repr im w h f -> inside w h x y ->
    exists x1 y1 x2 y2 dx dy, x1 < w /\ x2 < w /\ y1 < h /\ y2 < h /\
      (dx == x - qn x1 /\ 0 <= dx < 1 /\ dy == y - qn y1 /\ 0 <= dy < 1)%Q /\
      (x2 = x1 + 1 \/ x2 = x1 /\ (dx == 0)%Q) /\ (y2 = y1 + 1 \/ y2 = y1 /\ (dy == 0)%Q) /\
      bil im x y = Ok (fin ((conv (f x1 y1) * (1 - dx) + conv (f x2 y1) * dx) * (1 - dy) + (conv (f x1 y2) * (1 - dx) + conv (f x2 y2) * dx) * dy)%Q).
  Proof.
    intros HR ((X0 & X1) & Y0 & Y1).
    assert (HX := to_size_lt x w X0 X1); assert (HY := to_size_lt y h Y0 Y1).
    destruct (to_size_spec x X0) as [XL XU]; destruct (to_size_spec y Y0) as [YL YU].
    unfold bilinear_interpolate; rewrite (get_width_Repr _ _ _ _ HR), (get_height_Repr _ _ _ _ HR); cbn [bind].
    replace (Qltb x 0) with false by (symmetry; apply Qltb_ge; auto); replace (Qltb (qn w - 1) x) with false by (symmetry; apply Qltb_ge; auto).
    replace (Qltb y 0) with false by (symmetry; apply Qltb_ge; auto); replace (Qltb (qn h - 1) y) with false by (symmetry; apply Qltb_ge; auto).
    cbn [orb]; set (x1 := to_size x) in *; set (y1 := to_size y) in *; clearbody x1 y1.
    exists x1, y1, (if w <=? x1 + 1 then x1 else x1 + 1), (if h <=? y1 + 1 then y1 else y1 + 1), (x - qn x1)%Q, (y - qn y1)%Q.
    assert (CX : (if w <=? x1 + 1 then x1 else x1 + 1) < w) by (destruct (Nat.leb_spec w (x1 + 1)); lia).
    assert (CY : (if h <=? y1 + 1 then y1 else y1 + 1) < h) by (destruct (Nat.leb_spec h (y1 + 1)); lia).
    split; auto; split; auto; split; auto; split; auto; split; [|split; [|split]].
    - split; [reflexivity|]; split; [lra|]; split; [reflexivity | lra].
    - destruct (Nat.leb_spec w (x1 + 1)) as [L|L]; [right | left; auto]; split; auto.
      assert (E : w = x1 + 1) by lia; assert (Q := qn_S x1); rewrite <- E in Q; lra.
    - destruct (Nat.leb_spec h (y1 + 1)) as [L|L]; [right | left; auto]; split; auto.
      assert (E : h = y1 + 1) by lia; assert (Q := qn_S y1); rewrite <- E in Q; lra.
    - rewrite !(at_Repr _ _ _ _ _ _ HR) by auto; reflexivity.
  Qed.
End Interp.

Lemma convex a b t lo hi : (0 <= t <= 1)%Q -> (lo <= a <= hi)%Q -> (lo <= b <= hi)%Q -> (lo <= a * (1 - t) + b * t <= hi)%Q.
Proof. intros; nra. Qed.

Lemma convex0 a b t lo hi : (0 <= t < 1)%Q -> (lo <= a <= hi)%Q -> (~ (t == 0)%Q -> (lo <= b <= hi)%Q) -> (lo <= a * (1 - t) + b * t <= hi)%Q.
Proof.
  intros H1 H2 H3; destruct (Qeq_dec t 0) as [E|N].
  - setoid_replace (a * (1 - t) + b * t)%Q with a by (rewrite E; ring); auto.
  - apply convex; auto; lra.
Qed.

(** ** the cubic kernel *)
Definition P1 (t : Q) : Q := ((3 # 2) * t * t * t - (5 # 2) * t * t + 1)%Q.
Definition P2 (t : Q) : Q := ((-1 # 2) * t * t * t + (5 # 2) * t * t - 4 * t + 2)%Q.

Lemma cubic_kernel_near x : (-1 <= x <= 1)%Q -> (cubic_kernel x == P1 (if Qltb x 0 then - x else x))%Q.
Proof.
  intros H; unfold cubic_kernel; cbv zeta; destruct (Qltb x 0) eqn:E.
  - apply Qltb_lt in E; replace (Qle_bool (- x) 1) with true by (symmetry; apply Qle_bool_iff; lra); unfold P1; ring.
  - apply Qltb_ge in E; replace (Qle_bool x 1) with true by (symmetry; apply Qle_bool_iff; lra); unfold P1; ring.
Qed.

Lemma cubic_kernel_far x : (1 <= x <= 2 \/ -2 <= x <= -1)%Q -> (cubic_kernel x == P2 (if Qltb x 0 then - x else x))%Q.
Proof.
  intros H; unfold cubic_kernel; cbv zeta; destruct (Qltb x 0) eqn:E.
  - apply Qltb_lt in E; destruct (Qle_bool (- x) 1) eqn:E1.
    + apply Qle_bool_iff in E1; assert (X : (x == -1)%Q) by lra; unfold P2; rewrite X; reflexivity.
    + apply Qle_bool_false in E1; destruct (Qltb (- x) 2) eqn:E2; [unfold P2; ring|].
      apply Qltb_ge in E2; assert (X : (x == -2)%Q) by lra; unfold P2; rewrite X; reflexivity.
  - apply Qltb_ge in E; destruct (Qle_bool x 1) eqn:E1.
    + apply Qle_bool_iff in E1; assert (X : (x == 1)%Q) by lra; unfold P2; rewrite X; reflexivity.
    + apply Qle_bool_false in E1; destruct (Qltb x 2) eqn:E2; [unfold P2; ring|].
      apply Qltb_ge in E2; assert (X : (x == 2)%Q) by lra; unfold P2; rewrite X; reflexivity.
Qed.

(** the four weights at the fraction t *)
Lemma cubic_weights x b t : (x == b + t)%Q -> (0 <= t < 1)%Q ->
  (cubic_kernel (x - (b - 1)) == P2 (1 + t) /\ cubic_kernel (x - b) == P1 t /\
   cubic_kernel (x - (b + 1)) == P1 (1 - t) /\ cubic_kernel (x - (b + 2)) == P2 (2 - t))%Q.
Proof.
  intros Hx Ht; split; [|split; [|split]].
  - rewrite cubic_kernel_far by (left; lra); replace (Qltb (x - (b - 1)) 0) with false by (symmetry; apply Qltb_ge; lra).
    unfold P2; rewrite Hx; ring.
  - rewrite cubic_kernel_near by lra; replace (Qltb (x - b) 0) with false by (symmetry; apply Qltb_ge; lra).
    unfold P1; rewrite Hx; ring.
  - rewrite cubic_kernel_near by lra; replace (Qltb (x - (b + 1)) 0) with true by (symmetry; apply Qltb_lt; lra).
    unfold P1; rewrite Hx; ring.
  - rewrite cubic_kernel_far by (right; lra); replace (Qltb (x - (b + 2)) 0) with true by (symmetry; apply Qltb_lt; lra).
    unfold P2; rewrite Hx; ring.
Qed.

Lemma weights_sum t : (P2 (1 + t) + P1 t + P1 (1 - t) + P2 (2 - t) == 1)%Q.
Proof. unfold P1, P2; ring. Qed.

(** the value of the bicubic interpolator away from the border *)
Definition deep (w h : nat) (x y : Q) : Prop := (1 <= x < qn w - 2 /\ 1 <= y < qn h - 2)%Q.

Section Bicubic.
  Context {A : Type} (conv : A -> Q) (fin : Q -> A) (zero : A).
  Notation bil := (bilinear_interpolate conv fin zero).
  Notation bic := (bicubic_interpolate conv fin zero).

  Lemma bicubic_border im w h f x y : Repr im w h f -> ~ deep w h x y -> bic im x y = bil im x y.
  Proof.
    intros HR HN; unfold bicubic_interpolate; rewrite (get_width_Repr _ _ _ _ HR), (get_height_Repr _ _ _ _ HR); cbn [bind].
    destruct (Qltb x 1) eqn:E1; auto; destruct (Qle_bool (qn w - 2) x) eqn:E2; auto; destruct (Qltb y 1) eqn:E3; auto; destruct (Qle_bool (qn h - 2) y) eqn:E4; auto.
    rewrite Qltb_ge in E1, E3; rewrite Qle_bool_false in E2, E4; exfalso; apply HN; unfold deep; lra.
  Qed.

  Definition tap4 (F : nat -> Q) (t : Q) : Q := (F 0%nat * P2 (1 + t) + F 1%nat * P1 t + F 2%nat * P1 (1 - t) + F 3%nat * P2 (2 - t))%Q.

  Lemma bicubic_deep im w h f x y : Repr im w h f -> deep w h x y ->
    exists a b tx ty q, a + 3 < w /\ b + 3 < h /\ (x == qn a + 1 + tx /\ 0 <= tx < 1 /\ y == qn b + 1 + ty /\ 0 <= ty < 1)%Q /\
      bic im x y = Ok (fin q) /\ (q == tap4 (fun j => tap4 (fun i => conv (f (a + i)%nat (b + j)%nat)) tx) ty)%Q.
  Proof.
    intros HR ((X0 & X1) & Y0 & Y1).
    destruct (to_size_spec x) as [XL XU]; [lra|]; destruct (to_size_spec y) as [YL YU]; [lra|].
    assert (HX : 1 <= to_size x). { assert (L : (qn 0 < qn (to_size x))%Q) by (change (qn 0) with 0%Q; lra); apply qn_lt in L; lia. }
    assert (HY : 1 <= to_size y). { assert (L : (qn 0 < qn (to_size y))%Q) by (change (qn 0) with 0%Q; lra); apply qn_lt in L; lia. }
    assert (HX2 : to_size x + 2 < w).
    { assert (L : (qn (to_size x + 1 + 1) < qn w)%Q) by (rewrite !qn_S; lra); apply qn_lt in L; lia. }
    assert (HY2 : to_size y + 2 < h).
    { assert (L : (qn (to_size y + 1 + 1) < qn h)%Q) by (rewrite !qn_S; lra); apply qn_lt in L; lia. }
    unfold bicubic_interpolate; rewrite (get_width_Repr _ _ _ _ HR), (get_height_Repr _ _ _ _ HR); cbn [bind].
    replace (Qltb x 1) with false by (symmetry; apply Qltb_ge; auto); replace (Qle_bool (qn w - 2) x) with false by (symmetry; apply Qle_bool_false; auto).
    replace (Qltb y 1) with false by (symmetry; apply Qltb_ge; auto); replace (Qle_bool (qn h - 2) y) with false by (symmetry; apply Qle_bool_false; auto).
    cbn [orb]; set (x1 := to_size x) in *; set (y1 := to_size y) in *; clearbody x1 y1.
    unfold for_range; cbn [seq for_list bind].
    rewrite !(at_Repr _ _ _ _ _ _ HR) by lia; cbn [bind].
    exists (x1 - 1), (y1 - 1), (x - qn x1)%Q, (y - qn y1)%Q.
    assert (EX : (qn x1 == qn (x1 - 1) + 1)%Q) by (rewrite <- qn_S; replace (x1 - 1 + 1) with x1 by lia; reflexivity).
    assert (EY : (qn y1 == qn (y1 - 1) + 1)%Q) by (rewrite <- qn_S; replace (y1 - 1 + 1) with y1 by lia; reflexivity).
    eexists; split; [lia|]; split; [lia|]; split; [|split; [reflexivity|]].
    - split; [lra|]; split; [lra|]; split; lra.
    - destruct (cubic_weights x (qn x1) (x - qn x1)) as (A0 & A1 & A2 & A3); [lra|lra|].
      destruct (cubic_weights y (qn y1) (y - qn y1)) as (B0 & B1 & B2 & B3); [lra|lra|].
      assert (K : forall a b, (a == b -> cubic_kernel a == cubic_kernel b)%Q).
      { intros a b E.
        assert (T : forall u, (cubic_kernel u == if Qle_bool (if Qltb u 0 then - u else u) 1 then P1 (if Qltb u 0 then - u else u) else if Qltb (if Qltb u 0 then - u else u) 2 then P2 (if Qltb u 0 then - u else u) else 0)%Q).
        { intros u; unfold cubic_kernel; cbv zeta; set (z := if Qltb u 0 then (- u)%Q else u); destruct (Qle_bool z 1); [unfold P1; ring|]; destruct (Qltb z 2); [unfold P2; ring | reflexivity]. }
        rewrite !T.
        assert (S : Qltb a 0 = Qltb b 0). { destruct (Qltb b 0) eqn:G; [apply Qltb_lt in G; apply Qltb_lt; lra | apply Qltb_ge in G; apply Qltb_ge; lra]. }
        rewrite S; set (za := if Qltb b 0 then (- a)%Q else a); set (zb := if Qltb b 0 then (- b)%Q else b).
        assert (Z : (za == zb)%Q) by (unfold za, zb; destruct (Qltb b 0); lra).
        assert (S1 : Qle_bool za 1 = Qle_bool zb 1). { destruct (Qle_bool zb 1) eqn:G; [apply Qle_bool_iff in G; apply Qle_bool_iff; lra | apply Qle_bool_false in G; apply Qle_bool_false; lra]. }
        assert (S2 : Qltb za 2 = Qltb zb 2). { destruct (Qltb zb 2) eqn:G; [apply Qltb_lt in G; apply Qltb_lt; lra | apply Qltb_ge in G; apply Qltb_ge; lra]. }
        rewrite S1, S2; destruct (Qle_bool zb 1); [unfold P1; rewrite Z; reflexivity|]; destruct (Qltb zb 2); [unfold P2; rewrite Z; reflexivity | reflexivity]. }
      assert (QX : forall k, (qn (x1 - 1 + k) == qn x1 - 1 + qn k)%Q).
      { intros k; unfold qn in *; rewrite Nat2Z.inj_add, inject_Z_plus; lra. }
      assert (QY : forall k, (qn (y1 - 1 + k) == qn y1 - 1 + qn k)%Q).
      { intros k; unfold qn in *; rewrite Nat2Z.inj_add, inject_Z_plus; lra. }
      assert (N0 : (qn 0 == 0)%Q) by reflexivity; assert (N1 : (qn 1 == 1)%Q) by reflexivity.
      assert (N2 : (qn 2 == 2)%Q) by reflexivity; assert (N3 : (qn 3 == 3)%Q) by reflexivity.
      rewrite (K (x - qn (x1 - 1 + 0))%Q (x - (qn x1 - 1))%Q), (K (x - qn (x1 - 1 + 1))%Q (x - qn x1)%Q),
        (K (x - qn (x1 - 1 + 2))%Q (x - (qn x1 + 1))%Q), (K (x - qn (x1 - 1 + 3))%Q (x - (qn x1 + 2))%Q) by (rewrite QX; lra).
      rewrite (K (y - qn (y1 - 1 + 0))%Q (y - (qn y1 - 1))%Q), (K (y - qn (y1 - 1 + 1))%Q (y - qn y1)%Q),
        (K (y - qn (y1 - 1 + 2))%Q (y - (qn y1 + 1))%Q), (K (y - qn (y1 - 1 + 3))%Q (y - (qn y1 + 2))%Q) by (rewrite QY; lra).
      rewrite A0, A1, A2, A3, B0, B1, B2, B3; unfold tap4; ring.
  Qed.

  (** every position gets a value *)
  Lemma bilinear_total im w h f x y : Repr im w h f -> exists v, bil im x y = Ok v.
  Proof.
    intros HR; destruct (Qlt_le_dec x 0) as [H1|H1]; [exists zero; apply (bilinear_outside _ _ _ _ w h f); auto; unfold inside; lra|].
    destruct (Qlt_le_dec (qn w - 1) x) as [H2|H2]; [exists zero; apply (bilinear_outside _ _ _ _ w h f); auto; unfold inside; lra|].
    destruct (Qlt_le_dec y 0) as [H3|H3]; [exists zero; apply (bilinear_outside _ _ _ _ w h f); auto; unfold inside; lra|].
    destruct (Qlt_le_dec (qn h - 1) y) as [H4|H4]; [exists zero; apply (bilinear_outside _ _ _ _ w h f); auto; unfold inside; lra|].
    destruct (bilinear_inside conv fin zero im w h f x y HR) as (x1 & y1 & x2 & y2 & dx & dy & _ & _ & _ & _ & _ & _ & _ & E); [unfold inside; lra | eauto].
  Qed.

  Lemma deep_dec w h x y : deep w h x y \/ ~ deep w h x y.
  Proof.
    unfold deep; destruct (Qlt_le_dec x 1); [right; lra|]; destruct (Qlt_le_dec x (qn w - 2)); [|right; lra].
    destruct (Qlt_le_dec y 1); [right; lra|]; destruct (Qlt_le_dec y (qn h - 2)); [left | right]; lra.
  Qed.

  (** grid points, constants and affine images: the accumulated value is exact *)
  Lemma bilinear_sample im w h f i j : Repr im w h f -> i < w -> j < h ->
    exists q, bil im (qn i) (qn j) = Ok (fin q) /\ (q == conv (f i j))%Q.
  Proof.
    intros HR Hi Hj.
    destruct (bilinear_inside conv fin zero im w h f (qn i) (qn j) HR) as (x1 & y1 & x2 & y2 & dx & dy & L1 & L2 & L3 & L4 & (E1 & R1 & E2 & R2) & C1 & C2 & E).
    { assert (I1 := qn_nonneg i); assert (I2 := qn_nonneg j); assert (I3 : (qn (i + 1) <= qn w)%Q) by (apply qn_le; lia);
      assert (I4 : (qn (j + 1) <= qn h)%Q) by (apply qn_le; lia); rewrite qn_S in I3, I4; unfold inside; lra. }
    assert (X : x1 = i).
    { assert (S1 := qn_S x1); assert ((qn i < qn (x1 + 1))%Q) by lra; assert ((qn x1 <= qn i)%Q) by lra; rewrite qn_lt in *; rewrite qn_le in *; lia. }
    assert (Y : y1 = j).
    { assert (S1 := qn_S y1); assert ((qn j < qn (y1 + 1))%Q) by lra; assert ((qn y1 <= qn j)%Q) by lra; rewrite qn_lt in *; rewrite qn_le in *; lia. }
    subst x1 y1; eexists; split; [exact E|].
    setoid_replace dx with 0%Q by lra; setoid_replace dy with 0%Q by lra; ring.
  Qed.

  Lemma bilinear_between im w h f x y lo hi : Repr im w h f -> inside w h x y ->
    (forall i j, i < w -> j < h -> (-1 < x - qn i < 1)%Q -> (-1 < y - qn j < 1)%Q -> (lo <= conv (f i j) <= hi)%Q) ->
    exists q, bil im x y = Ok (fin q) /\ (lo <= q <= hi)%Q.
  Proof.
    intros HR HI Hb.
    destruct (bilinear_inside conv fin zero im w h f x y HR HI) as (x1 & y1 & x2 & y2 & dx & dy & L1 & L2 & L3 & L4 & (E1 & R1 & E2 & R2) & C1 & C2 & E).
    eexists; split; [exact E|].
    assert (X2 : (~ dx == 0)%Q -> (-1 < x - qn x2 < 1)%Q).
    { intros N; destruct C1 as [C1|[_ C1]]; [|tauto]; rewrite C1, qn_S; destruct R1 as [R1 R1u]; assert ((0 < dx)%Q) by (apply Qle_lteq in R1; destruct R1 as [?|R1]; [auto | symmetry in R1; tauto]); lra. }
    assert (Y2 : (~ dy == 0)%Q -> (-1 < y - qn y2 < 1)%Q).
    { intros N; destruct C2 as [C2|[_ C2]]; [|tauto]; rewrite C2, qn_S; destruct R2 as [R2 R2u]; assert ((0 < dy)%Q) by (apply Qle_lteq in R2; destruct R2 as [?|R2]; [auto | symmetry in R2; tauto]); lra. }
    apply convex0; [lra | |].
    - apply convex0; [lra | apply Hb; auto; lra | intros N; apply Hb; auto; lra].
    - intros N; apply convex0; [lra | apply Hb; auto; lra | intros N2; apply Hb; auto; lra].
  Qed.

  (** agreeing with an affine function at the pixels means agreeing everywhere inside *)
  Lemma bilinear_affine im w h f x y a b c : Repr im w h f -> inside w h x y ->
    (forall i j, i < w -> j < h -> (conv (f i j) == a + b * qn i + c * qn j)%Q) ->
    exists q, bil im x y = Ok (fin q) /\ (q == a + b * x + c * y)%Q.
  Proof.
    intros HR HI HA.
    destruct (bilinear_inside conv fin zero im w h f x y HR HI) as (x1 & y1 & x2 & y2 & dx & dy & L1 & L2 & L3 & L4 & (E1 & R1 & E2 & R2) & C1 & C2 & E).
    eexists; split; [exact E|]; rewrite !HA by auto.
    setoid_replace x with (qn x1 + dx)%Q by lra; setoid_replace y with (qn y1 + dy)%Q by lra.
    destruct C1 as [->|[-> C1]]; destruct C2 as [->|[-> C2]]; rewrite ?qn_S; try rewrite C1; try rewrite C2; ring.
  Qed.

  Lemma tap4_affine F t a b : (forall i, i < 4 -> (F i == a + b * qn i)%Q) -> (tap4 F t == a + b * (1 + t))%Q.
  Proof.
    intros H; unfold tap4; rewrite !H by lia; change (qn 0) with 0%Q; change (qn 1) with 1%Q; change (qn 2) with 2%Q; change (qn 3) with 3%Q; unfold P1, P2; ring.
  Qed.
  Lemma tap4_ext F G t : (forall i, i < 4 -> (F i == G i)%Q) -> (tap4 F t == tap4 G t)%Q.
  Proof. intros H; unfold tap4; rewrite !H by lia; reflexivity. Qed.
  Lemma qn_add a b : (qn (a + b) == qn a + qn b)%Q.
  Proof. unfold qn; rewrite Nat2Z.inj_add, inject_Z_plus; reflexivity. Qed.

  Lemma bicubic_affine im w h f x y a b c : Repr im w h f -> inside w h x y ->
    (forall i j, i < w -> j < h -> (conv (f i j) == a + b * qn i + c * qn j)%Q) ->
    exists q, bic im x y = Ok (fin q) /\ (q == a + b * x + c * y)%Q.
  Proof.
    intros HR HI HA; destruct (deep_dec w h x y) as [HD|HD].
    - destruct (bicubic_deep im w h f x y HR HD) as (x1 & y1 & tx & ty & q & L1 & L2 & (E1 & R1 & E2 & R2) & E & V).
      exists q; split; auto; rewrite V.
      rewrite (tap4_affine _ ty (a + b * (qn x1 + 1 + tx) + c * qn y1) c).
      + rewrite E1, E2; ring.
      + intros j Hj; rewrite (tap4_affine _ tx (a + b * qn x1 + c * qn (y1 + j)) b).
        * rewrite qn_add; ring.
        * intros i Hi; rewrite HA by lia; rewrite (qn_add x1 i); ring.
    - rewrite (bicubic_border im w h f x y HR HD); apply (bilinear_affine im w h f); auto.
  Qed.

  Lemma tap4_zero F : (tap4 F 0 == F 1%nat)%Q.
  Proof. unfold tap4, P1, P2; ring. Qed.

  Lemma bicubic_sample im w h f i j : Repr im w h f -> i < w -> j < h ->
    exists q, bic im (qn i) (qn j) = Ok (fin q) /\ (q == conv (f i j))%Q.
  Proof.
    intros HR Hi Hj; destruct (deep_dec w h (qn i) (qn j)) as [HD|HD].
    - destruct (bicubic_deep im w h f _ _ HR HD) as (x1 & y1 & tx & ty & q & L1 & L2 & (E1 & R1 & E2 & R2) & E & V).
      exists q; split; auto; rewrite V.
      assert (X : i = x1 + 1).
      { assert (S1 := qn_S x1); assert (S2 := qn_S (x1 + 1)); assert ((qn i < qn (x1 + 1 + 1))%Q) by lra; assert ((qn (x1 + 1) <= qn i)%Q) by lra; rewrite qn_lt in *; rewrite qn_le in *; lia. }
      assert (Y : j = y1 + 1).
      { assert (S1 := qn_S y1); assert (S2 := qn_S (y1 + 1)); assert ((qn j < qn (y1 + 1 + 1))%Q) by lra; assert ((qn (y1 + 1) <= qn j)%Q) by lra; rewrite qn_lt in *; rewrite qn_le in *; lia. }
      subst i j; rewrite qn_S in E1, E2.
      assert (TX : (tx == 0)%Q) by lra; assert (TY : (ty == 0)%Q) by lra.
      assert (C : forall F s t, (s == t -> tap4 F s == tap4 F t)%Q) by (intros F s t EQ; unfold tap4, P1, P2; rewrite EQ; reflexivity).
      rewrite (C _ ty 0%Q TY), tap4_zero, (C _ tx 0%Q TX), tap4_zero; reflexivity.
    - rewrite (bicubic_border im w h f _ _ HR HD); apply (bilinear_sample im w h f); auto.
  Qed.

  Lemma bicubic_total im w h f x y : Repr im w h f -> exists v, bic im x y = Ok v.
  Proof.
    intros HR; destruct (deep_dec w h x y) as [HD|HD].
    - destruct (bicubic_deep im w h f x y HR HD) as (a & b & tx & ty & q & _ & _ & _ & E & _); eauto.
    - rewrite (bicubic_border im w h f _ _ HR HD); eapply bilinear_total; eauto.
  Qed.
End Bicubic.

(** ** resizing *)
Definition tap (w : nat) (z : Z) : nat := Z.to_nat (Z.max 0 (Z.min z (Z.of_nat w - 1))).
Lemma tap_lt w z : 0 < w -> tap w z < w.
Proof. unfold tap; lia. Qed.
Lemma tap_in w n : n < w -> tap w (Z.of_nat n) = n.
Proof. unfold tap; lia. Qed.

Lemma clamp_tap w z d : 0 < w ->
  to_size (let v := (inject_Z z + inject_Z d)%Q in let hi := (qn w - 1)%Q in if Qltb v 0 then 0%Q else if Qltb hi v then hi else v) = tap w (z + d).
Proof.
  intros Hw; cbv zeta; unfold tap.
  assert (S : (inject_Z z + inject_Z d == inject_Z (z + d))%Q) by (rewrite inject_Z_plus; reflexivity).
  assert (T : (qn w - 1 == inject_Z (Z.of_nat w - 1))%Q) by (unfold Z.sub; rewrite inject_Z_plus; unfold qn; reflexivity).
  destruct (Qltb (inject_Z z + inject_Z d) 0) eqn:E1.
  - apply Qltb_lt in E1; rewrite S in E1; change 0%Q with (inject_Z 0) in E1; rewrite <- Zlt_Qlt in E1; change (to_size 0) with 0; lia.
  - apply Qltb_ge in E1; rewrite S in E1; change 0%Q with (inject_Z 0) in E1; rewrite <- Zle_Qle in E1.
    destruct (Qltb (qn w - 1) (inject_Z z + inject_Z d)) eqn:E2.
    + apply Qltb_lt in E2; rewrite S, T in E2; rewrite <- Zlt_Qlt in E2.
      rewrite (to_size_comp _ _ T); unfold to_size; rewrite Qfloor_Z; lia.
    + apply Qltb_ge in E2; rewrite S, T in E2; rewrite <- Zle_Qle in E2.
      rewrite (to_size_comp _ _ S); unfold to_size; rewrite Qfloor_Z; lia.
Qed.

Lemma Qfloor_div (a b : Z) : (0 < b)%Z -> Qfloor (inject_Z a / inject_Z b) = (a / b)%Z.
Proof.
  intros Hb; destruct b as [|p|p]; try lia.
  assert (E : (inject_Z a / inject_Z (Zpos p) == a # p)%Q) by (unfold Qdiv, Qmult, Qinv, inject_Z, Qeq; cbn; lia).
  rewrite (Qfloor_comp _ _ E); reflexivity.
Qed.

Lemma map_floor x w width : 0 < width -> Qfloor (qn x * (qn w / qn width)) = Z.of_nat (x * w / width).
Proof.
  intros Hw; rewrite Nat2Z.inj_div, Nat2Z.inj_mul, <- Qfloor_div by lia.
  apply Qfloor_comp; rewrite inject_Z_mult; unfold qn; field.
  change 0%Q with (inject_Z 0); intros E; unfold Qeq in E; cbn in E; lia.
Qed.

Definition frac_pos (x w width : nat) : Q := (qn x * (qn w / qn width) - inject_Z (Qfloor (qn x * (qn w / qn width))))%Q.

Definition around {A} (w h width height : nat) (f : nat -> nat -> A) (x y : nat) : list A :=
  map (fun k => f (tap w (Z.of_nat (x * w / width) + (Z.of_nat (k mod 4) - 1))) (tap h (Z.of_nat (y * h / height) + (Z.of_nat (k / 4) - 1)))) (seq 0 16).

Lemma resize_spec {A} interp fin (d : A) sg im w h f width height (g : nat -> nat -> A) : sched_ok sg -> Repr im w h f -> 0 < w -> 0 < h ->
  (forall x y, x < width -> y < height -> bicubicPolate interp fin d (around w h width height f x y) (frac_pos x w width) (frac_pos y h height) = Ok (g x y)) ->
  exists o, copyResizeBicubic interp fin d sg im width height = Ok o /\ Repr o width height g.
Proof.
  intros Hs HR Hw Hh Hg; unfold copyResizeBicubic.
  rewrite (get_width_Repr _ _ _ _ HR), (get_height_Repr _ _ _ _ HR); cbn [bind]; cbv zeta.
  apply (overlay_all (sg height width) _ snd fst).
  - reflexivity.
  - cbn; rewrite repeat_length; lia.
  - intros [y x] s HI Ds Ls; cbn [fst snd]; apply (sched_in _ _ _ _ Hs) in HI; cbn in HI.
    rewrite (mapM_ok _ (fun k => f (tap w (Z.of_nat (x * w / width) + (Z.of_nat (k mod 4) - 1))) (tap h (Z.of_nat (y * h / height) + (Z.of_nat (k / 4) - 1))))).
    + cbn [bind]; fold (around w h width height f x y); fold (frac_pos x w width) (frac_pos y h height).
      rewrite Hg by lia; cbn [bind]; apply (at_set2_ok s width height); auto; lia.
    + intros k _; replace (w =? 0) with false by lia; replace (h =? 0) with false by lia; cbn [orb].
      rewrite (clamp_tap w _ _ Hw), (clamp_tap h _ _ Hh), !map_floor by lia.
      apply (at_Repr _ _ _ _ _ _ HR); apply tap_lt; auto.
  - intros [y x] HI; apply (sched_in _ _ _ _ Hs) in HI; cbn in *; lia.
  - intros x y Hx Hy; exists (y, x); split; auto; apply (sched_in _ _ _ _ Hs); cbn; lia.
Qed.

Lemma trunc_frac q : (0 <= q < 1)%Q -> trunc q = 0%Z.
Proof.
  intros [H0 H1]; unfold trunc; unfold Qle, Qlt in *; change (Qnum 0) with 0%Z in *; change (Qden 0) with 1%positive in *; change (Qnum 1) with 1%Z in *; change (Qden 1) with 1%positive in *.
  apply Z.quot_small; lia.
Qed.
Lemma frac_pos_bounds x w width : (0 <= frac_pos x w width < 1)%Q.
Proof.
  unfold frac_pos; set (q := (qn x * (qn w / qn width))%Q).
  assert (L := Qfloor_le q); assert (U := Qlt_floor q); rewrite inject_Z_plus in U; change (inject_Z 1) with 1%Q in U; lra.
Qed.
Lemma frac_pos_zero x w width i : 0 < width -> x * w = i * width -> (frac_pos x w width == 0)%Q.
Proof.
  intros Hw E; unfold frac_pos.
  assert (Q : (qn x * (qn w / qn width) == qn i)%Q).
  { assert (N : ~ (qn width == 0)%Q) by (unfold qn, Qeq; cbn; lia).
    assert (M : (qn x * qn w == qn i * qn width)%Q) by (unfold qn; rewrite <- !inject_Z_mult, <- !Nat2Z.inj_mul, E; reflexivity).
    transitivity ((qn x * qn w) / qn width)%Q; [field; auto|]; rewrite M; field; auto. }
  rewrite (Qfloor_comp _ _ Q), Q; unfold qn; rewrite Qfloor_Z; ring.
Qed.

(** the sixteen samples *)
Lemma around_nth {A} w h width height (f : nat -> nat -> A) x y k d : k < 16 ->
  nth k (around w h width height f x y) d = f (tap w (Z.of_nat (x * w / width) + (Z.of_nat (k mod 4) - 1))) (tap h (Z.of_nat (y * h / height) + (Z.of_nat (k / 4) - 1))).
Proof.
  intros Hk; unfold around; set (F := fun k => _); rewrite (nth_indep _ d (F 0)) by (rewrite map_length, seq_length; auto).
  rewrite map_nth, seq_nth by auto; reflexivity.
Qed.

Lemma cubic_z_frac v0 v1 v2 v3 q : (0 <= q < 1)%Q -> cubic_z v0 v1 v2 v3 q = v1.
Proof. intros H; unfold cubic_z; cbv zeta; rewrite trunc_frac by auto; lia. Qed.

Lemma f32_small z : (Z.abs z <= 2 ^ 24)%Z -> f32_of_Z z = z.
Proof.
  intros H; unfold f32_of_Z; destruct (Z.eq_dec (Z.abs z) (2 ^ 24)) as [E|N].
  - assert (C : (z = 2 ^ 24 \/ z = - 2 ^ 24)%Z) by lia; destruct C as [-> | ->]; vm_compute; reflexivity.
  - destruct (Z.eq_dec z 0) as [->|Z0]; [reflexivity|].
    assert (L : (Z.log2 (Z.abs z) < 24)%Z) by (apply Z.log2_lt_pow2; lia).
    replace (Z.max 0 (Z.log2 (Z.abs z) - 23)) with 0%Z by lia; cbn -[Z.mul Z.modulo Z.div].
    rewrite Z.mod_1_r, Z.div_1_r; change (2 * 0 <? 1)%Z with true; cbv iota; lia.
Qed.

Lemma f32_big z : (2 ^ 24 <= z)%Z -> (2 ^ 24 <= f32_of_Z z)%Z.
Proof.
  intros H; assert (P : (0 < 2 ^ 24)%Z) by reflexivity.
  unfold f32_of_Z; rewrite (Z.abs_eq z), (Z.sgn_pos z) by lia.
  assert (L : (24 <= Z.log2 z)%Z) by (apply Z.log2_le_pow2; lia).
  rewrite Z.max_r by lia; set (e := (Z.log2 z - 23)%Z); set (q := (2 ^ e)%Z).
  assert (Q : (0 < q)%Z) by (apply Z.pow_pos_nonneg; unfold e; lia).
  assert (K : (2 ^ 23 <= z / q)%Z).
  { apply Z.div_le_lower_bound; auto; unfold q; rewrite <- Z.pow_add_r by (unfold e; lia).
    replace (e + 23)%Z with (Z.log2 z) by (unfold e; lia); apply Z.log2_spec; lia. }
  assert (Q2 : (2 <= q)%Z). { change 2%Z with (2 ^ 1)%Z at 1; apply Z.pow_le_mono_r; unfold e; lia. }
  match goal with |- (_ <= 1 * (?t * _))%Z => set (k' := t) end; assert (K' : (2 ^ 23 <= k')%Z).
  { unfold k'; destruct (_ <? _)%Z; [auto|]; destruct (_ <? _)%Z; [lia|]; destruct (Z.even _); lia. }
  change (2 ^ 24)%Z with (2 ^ 23 * 2)%Z; rewrite Z.mul_1_l; apply Z.mul_le_mono_nonneg; lia.
Qed.
Lemma f32_opp z : f32_of_Z (- z) = (- f32_of_Z z)%Z.
Proof. unfold f32_of_Z; rewrite Z.abs_opp, Z.sgn_opp; lia. Qed.

Lemma polate_fin_small lo hi v : (Z.abs v <= 2 ^ 24)%Z -> (lo <= v <= hi)%Z -> polate_fin lo hi v = Ok v.
Proof.
  intros Ha Hv; unfold polate_fin; rewrite (f32_small v) by auto.
  assert (L : (f32_of_Z lo <= v)%Z).
  { destruct (Z_le_dec (Z.abs lo) (2 ^ 24)) as [S|S]; [rewrite f32_small; lia|].
    assert (B := f32_big (- lo)); rewrite f32_opp in B; lia. }
  assert (U : (v <= f32_of_Z hi)%Z).
  { destruct (Z_le_dec (Z.abs hi) (2 ^ 24)) as [S|S]; [rewrite f32_small; lia|]; assert (B := f32_big hi); lia. }
  replace (v <? f32_of_Z lo)%Z with false by lia; replace (f32_of_Z hi <? v)%Z with false by lia; cbv zeta.
  replace ((lo <=? v)%Z && (v <=? hi)%Z) with true by lia; reflexivity.
Qed.
