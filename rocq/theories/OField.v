(** OField.v - ordered fields, the exact arithmetic that stands for floating point.

    Rounding, infinities and NaN are not modelled.  Functions that only add, multiply, divide and compare are
    modelled over any ordered field; [Rfield] and [Qcfield] are the instances used for statements about real numbers
    and for concrete cases. *)
From Coq Require Import Reals QArith Qcanon Lra Ring Field Bool.
From Verif Require Import Base.
Open Scope nat_scope.

Record ofield : Type := mkOField {
  car :> Type;
  f0 : car; f1 : car;
  fadd : car -> car -> car; fmul : car -> car -> car; fsub : car -> car -> car; fopp : car -> car;
  fdiv : car -> car -> car; finv : car -> car;
  fltb : car -> car -> bool;
  f_field : field_theory f0 f1 fadd fmul fsub fopp fdiv finv (@eq car);
  f_irrefl : forall a, fltb a a = false;
  f_trans : forall a b c, fltb a b = true -> fltb b c = true -> fltb a c = true;
  f_total : forall a b, fltb a b = false -> fltb b a = false -> a = b;
  f_add_lt : forall a b c, fltb a b = true -> fltb (fadd a c) (fadd b c) = true;
  f_mul_pos : forall a b, fltb f0 a = true -> fltb f0 b = true -> fltb f0 (fmul a b) = true
}.

Arguments f0 {_}. Arguments f1 {_}. Arguments fadd {_} _ _. Arguments fmul {_} _ _. Arguments fsub {_} _ _.
Arguments fopp {_} _. Arguments fdiv {_} _ _. Arguments finv {_} _. Arguments fltb {_} _ _.

Declare Scope field_scope.
Delimit Scope field_scope with F.
Notation "a + b" := (fadd a b) : field_scope.
Notation "a * b" := (fmul a b) : field_scope.
Notation "a - b" := (fsub a b) : field_scope.
Notation "a / b" := (fdiv a b) : field_scope.
Notation "- a" := (fopp a) : field_scope.
Notation "0" := f0 : field_scope.
Notation "1" := f1 : field_scope.
Notation "a <? b" := (fltb a b) : field_scope.

(** std::abs *)
Definition fabs {K : ofield} (x : K) : K := if (x <? 0)%F then (- x)%F else x.

(** ** the real numbers *)
Definition rltb (a b : R) : bool := if Rlt_dec a b then true else false.
Lemma rltb_spec a b : rltb a b = true <-> (a < b)%R.
Proof. unfold rltb; destruct (Rlt_dec a b); split; intros; auto; discriminate. Qed.
Lemma rltb_false a b : rltb a b = false <-> (b <= a)%R.
Proof. unfold rltb; destruct (Rlt_dec a b); split; intros; auto; try discriminate; lra. Qed.

Definition Rfield : ofield.
Proof.
  refine (mkOField R 0%R 1%R Rplus Rmult Rminus Ropp Rdiv Rinv rltb Rfield _ _ _ _ _).
  - intros a; apply rltb_false; lra.
  - intros a b c H1 H2; rewrite rltb_spec in *; lra.
  - intros a b H1 H2; rewrite rltb_false in *; lra.
  - intros a b c H; rewrite rltb_spec in *; lra.
  - intros a b H1 H2; rewrite rltb_spec in *; apply Rmult_lt_0_compat; auto.
Defined.

Lemma fabs_R (x : Rfield) : fabs x = Rabs x.
Proof.
  unfold fabs, Rabs; change (@fltb Rfield) with rltb; change (@f0 Rfield) with 0%R; change (@fopp Rfield) with Ropp.
  unfold rltb; destruct (Rlt_dec x 0), (Rcase_abs x); auto; lra.
Qed.

(** ** the rational numbers *)
Definition qcltb (a b : Qc) : bool := if Qclt_le_dec a b then true else false.
Lemma qcltb_spec a b : qcltb a b = true <-> (a < b)%Qc.
Proof.
  unfold qcltb; destruct (Qclt_le_dec a b) as [H|H]; split; intros; auto; try discriminate.
  exfalso; eapply Qcle_not_lt; eauto.
Qed.
Lemma qcltb_false a b : qcltb a b = false <-> (b <= a)%Qc.
Proof.
  unfold qcltb; destruct (Qclt_le_dec a b) as [H|H]; split; intros; auto; try discriminate.
  exfalso; eapply Qcle_not_lt; eauto.
Qed.

Definition Qcfield : ofield.
Proof.
  refine (mkOField Qc (Q2Qc 0) (Q2Qc 1) Qcplus Qcmult Qcminus Qcopp Qcdiv Qcinv qcltb Qcft _ _ _ _ _).
  - intros a; apply qcltb_false, Qcle_refl.
  - intros a b c H1 H2; rewrite qcltb_spec in *; eapply Qclt_trans; eauto.
  - intros a b H1 H2; rewrite qcltb_false in *; apply Qcle_antisym; auto.
  - intros a b c H; rewrite qcltb_spec in *; unfold Qclt in *; cbn [this Qcplus Q2Qc] in *; rewrite !Qred_correct.
    apply Qplus_lt_l; auto.
  - intros a b H1 H2; rewrite qcltb_spec in *; unfold Qclt in *; cbn [this Qcmult Q2Qc] in *; rewrite !Qred_correct in *.
    setoid_replace 0%Q with (0 * b)%Q by ring; apply Qmult_lt_compat_r; auto.
Defined.

(** rational constants *)
Definition qc (n : Z) (d : positive) : Qcfield := Q2Qc (n # d).

Section Facts.
  Variable K : ofield.
  Add Field KF : (f_field K).
  Open Scope field_scope.

  Lemma f_asym (a b : K) : (a <? b) = true -> (b <? a) = false.
  Proof.
    intros H; destruct (b <? a) eqn:E; auto; pose proof (f_trans K _ _ _ H E) as T; rewrite f_irrefl in T; discriminate.
  Qed.

  Lemma f_le_lt (a b c : K) : (b <? a) = false -> (b <? c) = true -> (a <? c) = true.
  Proof.
    intros H1 H2; destruct (a <? b) eqn:E; [eapply f_trans; eauto|].
    rewrite (f_total K a b E H1); auto.
  Qed.

  Lemma f_le_trans (a b c : K) : (b <? a) = false -> (c <? b) = false -> (c <? a) = false.
  Proof.
    intros H1 H2; destruct (c <? a) eqn:E; auto.
    destruct (a <? b) eqn:E'; [pose proof (f_trans K _ _ _ E E') as T; congruence|].
    rewrite (f_total K a b E' H1) in E; congruence.
  Qed.

  Lemma f_neg_pos (a : K) : (a <? 0) = true -> (0 <? - a) = true.
  Proof.
    intros H; apply (f_add_lt K _ _ (- a)) in H.
    replace (a + - a) with (f0 : K) in H by ring; replace (0 + - a) with (- a) in H by ring; auto.
  Qed.

  Lemma f_1_pos : ((0 : K) <? 1) = true.
  Proof.
    destruct (0 <? 1) eqn:E; auto; destruct ((1 : K) <? 0) eqn:E'.
    - pose proof (f_neg_pos _ E') as N; pose proof (f_mul_pos K _ _ N N) as P.
      replace (- (f1 : K) * - f1) with (f1 : K) in P by ring; congruence.
    - exfalso; apply (F_1_neq_0 (f_field K)); apply f_total; auto.
  Qed.

  Lemma f_1_neq_0 : (1 : K) <> 0.
  Proof. apply (F_1_neq_0 (f_field K)). Qed.

  Lemma fabs_0 : fabs (0 : K) = 0.
  Proof. unfold fabs; rewrite f_irrefl; auto. Qed.

  Lemma fabs_nonneg (a : K) : (fabs a <? 0) = false.
  Proof.
    unfold fabs; destruct (a <? 0) eqn:E; auto; apply f_asym, f_neg_pos; auto.
  Qed.

  Lemma fmul_eq0 (a b : K) : a * b = 0 -> a = 0 \/ b = 0.
  Proof.
    intros H; destruct (a <? 0) eqn:E1; [right | destruct (0 <? a) eqn:E2; [right | left; apply f_total; auto]].
    - assert (Na : a <> 0) by (intros ->; rewrite f_irrefl in E1; discriminate).
      replace b with ((a * b) / a) by (field; auto); rewrite H; field; auto.
    - assert (Na : a <> 0) by (intros ->; rewrite f_irrefl in E2; discriminate).
      replace b with ((a * b) / a) by (field; auto); rewrite H; field; auto.
  Qed.

  Lemma feq_dec (a b : K) : {a = b} + {a <> b}.
  Proof.
    destruct (a <? b) eqn:E1; [right; intros ->; rewrite f_irrefl in E1; discriminate|].
    destruct (b <? a) eqn:E2; [right; intros ->; rewrite f_irrefl in E2; discriminate|].
    left; apply f_total; auto.
  Qed.
End Facts.
