(** FitProofs.v - lemmas about the fit of a Gaussian. *)
From Coq Require Import Reals Lra Lia ZifyBool ZifyNat.
From Verif Require Import Base ImageModel ImageFacts IndexModel ImageProofs GeomModel GeomProofs PixelModel PixelProofs HistModel HistProofs
  NestedModel OField LinModel SolveProofs BigSum RSum ReduceModel ReduceProofs FourierModel FourierProofs GaussModel GaussProofs FrechetProofs FitModel.
Open Scope nat_scope.
Ltac Zify.zify_post_hook ::= Z.div_mod_to_equations.

(** ** specification *)
(** the Gaussian with amplitude v 0, centre (v 1, v 2), standard deviations v 3, v 4 and correlation v 5 *)
Definition hump (v : nat -> R) (x y : R) : R :=
  let amplitude := v 0 in let rho := v 5 in
  let x0 := v 1 in let y0 := v 2 in let sx := v 3 in let sy := v 4 in
  let a := ((x - x0) / sx)%R in let b := ((y - y0) / sy)%R in
  (amplitude * exp (- (a * a - 2 * rho * a * b + b * b) / (2 * (1 - rho * rho))))%R.
(** the parameters as a vector *)
Definition par (p : gparams) : nat -> R := fun i => nth i [g_amp p; g_x0 p; g_y0 p; g_sx p; g_sy p; g_rho p] 0%R.

Lemma hump_ext v v' x y : (forall i, i < 6 -> v i = v' i) -> hump v x y = hump v' x y.
Proof. intros E; unfold hump; rewrite !E by lia; auto. Qed.

(** the derivatives computed by the code *)
Definition jac (p : gparams) (x y : R) : list R :=
  let dx := (x - g_x0 p)%R in
  let dy := (y - g_y0 p)%R in
  let sx := g_sx p in let sy := g_sy p in let rho := g_rho p in
  let W := (1 / (1 - rho * rho))%R in
  let Z_eq := ((dx * dx) / (sx * sx) - (2 * rho * dx * dy) / (sx * sy) + (dy * dy) / (sy * sy))%R in
  let exp_term := exp (- (1 / 2) * W * Z_eq) in
  let f_val := (g_amp p * exp_term)%R in
  [exp_term;
   (f_val * W * ((dx / (sx * sx)) - (rho * dy) / (sx * sy)))%R;
   (f_val * W * ((dy / (sy * sy)) - (rho * dx) / (sx * sy)))%R;
   (f_val * W * (((dx * dx) / (sx * sx * sx)) - (rho * dx * dy) / (sx * sx * sy)))%R;
   (f_val * W * (((dy * dy) / (sy * sy * sy)) - (rho * dx * dy) / (sx * sy * sy)))%R;
   (f_val * W * (((dx * dy) / (sx * sy)) - rho * W * Z_eq))%R].

Definition regular (p : gparams) : Prop := g_sx p <> 0%R /\ g_sy p <> 0%R /\ (1 - g_rho p * g_rho p <> 0)%R.

Lemma hump_frechet p x y : regular p -> frechet 6 (fun v => hump v x y) (par p) (fun i => nth i (jac p x y) 0%R).
Proof.
  intros (Nx & Ny & Nr).
  assert (A := fr_mult 6 _ _ (par p) _ _ (fr_minus 6 _ _ (par p) _ _ (fr_const 6 x (par p)) (fr_proj 6 1 (par p) ltac:(lia)))
                 (fr_inv 6 _ (par p) _ (fr_proj 6 3 (par p) ltac:(lia)) Nx)).
  assert (B := fr_mult 6 _ _ (par p) _ _ (fr_minus 6 _ _ (par p) _ _ (fr_const 6 y (par p)) (fr_proj 6 2 (par p) ltac:(lia)))
                 (fr_inv 6 _ (par p) _ (fr_proj 6 4 (par p) ltac:(lia)) Ny)).
  assert (RH := fr_proj 6 5 (par p) ltac:(lia)).
  assert (N := fr_plus 6 _ _ _ _ _ (fr_minus 6 _ _ _ _ _ (fr_mult 6 _ _ _ _ _ A A)
                 (fr_mult 6 _ _ _ _ _ (fr_mult 6 _ _ _ _ _ (fr_scal 6 _ _ _ 2 RH) A) B)) (fr_mult 6 _ _ _ _ _ B B)).
  assert (D := fr_scal 6 _ _ _ 2 (fr_minus 6 _ _ _ _ _ (fr_const 6 1 (par p)) (fr_mult 6 _ _ _ _ _ RH RH))).
  assert (ND : (2 * (1 - par p 5%nat * par p 5%nat))%R <> 0%R) by (unfold par; cbn [nth]; intros E; apply Nr; lra).
  assert (Q := fr_mult 6 _ _ _ _ _ (fr_scal 6 _ _ _ (-1) N) (fr_inv 6 _ _ _ D ND)).
  assert (F := fr_mult 6 _ _ _ _ _ (fr_proj 6 0 (par p) ltac:(lia)) (fr_exp 6 _ _ _ Q)).
  cbv beta in F.
  eapply fr_ext; [eapply fr_grad; [exact F|]|]; clear - Nx Ny Nr.
  - intros i Hi; cbv beta; unfold jac.
    match goal with |- context [exp (- (1 / 2) * ?a * ?b)] => set (E1 := exp (- (1 / 2) * a * b)) end.
    match goal with |- context [exp (-1 * ?a * ?b)] => set (E2 := exp (-1 * a * b)) end.
    assert (E : E1 = E2) by (unfold E1, E2; f_equal; unfold par; cbn [nth]; field; auto).
    clearbody E1 E2; subst E2; unfold par.
    destruct i as [|[|[|[|[|[|i]]]]]]; [..|lia]; cbn [nth Nat.eqb]; field; auto.
  - intros v; cbv beta; unfold hump; unfold Rdiv; f_equal; f_equal; f_equal; ring.
Qed.

(** ** accumulators *)
Lemma rsuml_rsum {I} (g : I -> R) l : rsuml (map g l) = rsum g l.
Proof. induction l as [|i l IH]; [reflexivity|]; rewrite rsum_cons, <- IH; reflexivity. Qed.
Lemma rsuml_app l m : rsuml (l ++ m) = (rsuml l + rsuml m)%R.
Proof. unfold rsuml; induction l as [|a l IH]; cbn [app fold_right]; [ring | rewrite IH; ring]. Qed.
Lemma rsuml_perm l m : Permutation l m -> rsuml l = rsuml m.
Proof. intros P; unfold rsuml; induction P; cbn [fold_right]; try congruence; ring. Qed.
Lemma zip2_map {I A B C} (op : A -> B -> C) (F : I -> A) (G : I -> B) l : zip2 op (map F l) (map G l) = map (fun i => op (F i) (G i)) l.
Proof. unfold zip2; induction l as [|i l IH]; cbn [map combine]; [auto|]; f_equal; auto. Qed.
Lemma map_nth_all {A} (d : A) n l : length l = n -> map (fun i => nth i l d) (seq 0 n) = l.
Proof.
  intros L; apply nth_ext with (d := d) (d' := d); [rewrite map_length, seq_length; auto|].
  intros i Hi; rewrite map_length, seq_length in Hi; rewrite (nth_indep _ d (nth 0 l d)) by (rewrite map_length, seq_length; auto).
  rewrite (map_nth (fun i => nth i l d)), seq_nth by auto; auto.
Qed.
Lemma nth_map_seq {A} (F : nat -> A) d n i : i < n -> nth i (map F (seq 0 n)) d = F i.
Proof.
  intros Hi; rewrite (nth_indep _ d (F 0)) by (rewrite map_length, seq_length; auto).
  rewrite (map_nth F), seq_nth by auto; auto.
Qed.

Definition shape (a : accum) : Prop := length (a_g a) = 6 /\ length (a_H a) = 6 /\ Forall (fun r => length r = 6) (a_H a).
Definition tot (l : list accum) : accum :=
  mkAcc (rsuml (map a_sse l))
    (map (fun i => map (fun j => rsuml (map (fun a => nth j (nth i (a_H a) []) 0%R) l)) (seq 0 6)) (seq 0 6))
    (map (fun i => rsuml (map (fun a => nth i (a_g a) 0%R) l)) (seq 0 6)).
Lemma rsuml_one a : rsuml [a] = a.
Proof. unfold rsuml; cbn [fold_right]; ring. Qed.
Lemma tot_one a : shape a -> tot [a] = a.
Proof.
  intros (Lg & LH & FH); destruct a as [e H g]; unfold tot; cbn [a_sse a_H a_g map] in *; f_equal.
  - apply rsuml_one.
  - transitivity (map (fun i => nth i H []) (seq 0 6)); [|apply map_nth_all; auto]; apply map_ext_in; intros i Hi; apply in_seq in Hi.
    rewrite Forall_forall in FH; assert (L : length (nth i H []) = 6) by (apply FH, nth_In; lia).
    transitivity (map (fun j => nth j (nth i H []) 0%R) (seq 0 6)); [|apply map_nth_all; auto]; apply map_ext; intros j; apply rsuml_one.
  - transitivity (map (fun i => nth i g 0%R) (seq 0 6)); [|apply map_nth_all; auto]; apply map_ext; intros i; apply rsuml_one.
Qed.
Lemma tot_app l m : tot (l ++ m) = acc_add (tot l) (tot m).
Proof.
  unfold tot, acc_add; cbn [a_sse a_H a_g]; rewrite !zip2_map; f_equal.
  - rewrite map_app, rsuml_app; auto.
  - apply map_ext; intros i; rewrite zip2_map; apply map_ext; intros j; rewrite map_app, rsuml_app; auto.
  - apply map_ext; intros i; rewrite map_app, rsuml_app; auto.
Qed.
Lemma tot_perm l m : Permutation l m -> tot l = tot m.
Proof.
  intros P; unfold tot; f_equal; [|apply map_ext; intros i; apply map_ext; intros j|apply map_ext; intros i];
    apply rsuml_perm, Permutation_map; auto.
Qed.
Lemma reduces_acc l r : reduces acc_add l r -> Forall shape l -> r = tot l.
Proof.
  intros HR; apply (reduces_rel acc_add (fun l r => Forall shape l -> r = tot l)) with (4 := HR).
  - intros a Ha; inversion Ha; subst; symmetry; apply tot_one; auto.
  - intros l1 l2 a b H1 H2 HF; apply Forall_app in HF as [F1 F2]; rewrite tot_app, H1, H2; auto.
  - intros l1 l2 a P H HF; rewrite <- (tot_perm _ _ P); apply H; eapply Permutation_Forall; [apply Permutation_sym|]; eauto.
Qed.
Lemma acc0_shape : shape acc0.
Proof. repeat split; repeat constructor. Qed.

(** ** the fit of one picture *)
Section Fit.
  Variables (im : image R) (w h : nat) (f : nat -> nat -> R).
  Hypothesis HR : Repr im w h f.
  Hypothesis Pw : 0 < w.
  Hypothesis Ph : 0 < h.
  Notation N := (w * h).
  Definition zof (i : nat) : R := f (i mod w) (i / w).
  Definition xof (i : nat) : R := INR (i mod w).
  Definition yof (i : nat) : R := INR (i / w).
  (** the squared error *)
  Definition err (v : nat -> R) : R := rsum (fun i => (zof i - hump v (xof i) (yof i)) * (zof i - hump v (xof i) (yof i)))%R (seq 0 N).

  Lemma count_N : count im = N.
  Proof. destruct HR as (D & _); unfold count; rewrite D; cbn; lia. Qed.
  Lemma pix_i i : i < N -> nth_error (pix im) i = Some (zof i).
  Proof.
    intros Hi; destruct HR as (_ & _ & H); unfold zof; rewrite <- H; [f_equal; nia | nia | nia].
  Qed.
  Lemma vget_i i : i < N -> vget (pix im) i = Ok (zof i).
  Proof. intros; apply vget_ok, pix_i; auto. Qed.
  Lemma nth_i i : i < N -> nth i (pix im) 0%R = zof i.
  Proof. intros; apply nth_error_nth, pix_i; auto. Qed.
  Lemma width_w : get_width im = Ok w.
  Proof. apply (get_width_Repr _ _ _ _ HR). Qed.

  Lemma hump_val p x y : regular p -> (g_amp p * nth 0 (jac p x y) 0 = hump (par p) x y)%R.
  Proof.
    intros (Nx & Ny & Nr); unfold hump, jac, par; cbn [nth]; f_equal; f_equal; field; auto.
  Qed.

  Definition resid (p : gparams) (i : nat) : R := (zof i - hump (par p) (xof i) (yof i))%R.
  Definition jc (p : gparams) (i k : nat) : R := nth k (jac p (xof i) (yof i)) 0%R.
  Definition one (p : gparams) (i : nat) : accum :=
    mkAcc (resid p i * resid p i)
      (map (fun a => map (fun b => (a * b)%R) (jac p (xof i) (yof i))) (jac p (xof i) (yof i)))
      (map (fun a => (a * resid p i)%R) (jac p (xof i) (yof i))).
  Lemma lm_map_ok p i : regular p -> i < N -> lm_map im p i = Ok (one p i).
  Proof.
    intros RP Hi; unfold lm_map; rewrite width_w; cbn [bind]; rewrite vget_i by auto; cbn [bind].
    unfold one, resid; rewrite <- hump_val by auto; reflexivity.
  Qed.
  Lemma sse_map_ok p i : regular p -> i < N -> sse_map im p i = Ok (resid p i * resid p i)%R.
  Proof.
    intros RP Hi; unfold sse_map; rewrite width_w; cbn [bind]; rewrite vget_i by auto; cbn [bind].
    unfold resid; rewrite <- hump_val by auto; reflexivity.
  Qed.
  Lemma one_shape p i : shape (one p i).
  Proof. repeat split; repeat constructor. Qed.

  Definition hes (p : gparams) (k l : nat) : R := rsum (fun i => jc p i k * jc p i l)%R (seq 0 N).
  Definition gra (p : gparams) (k : nat) : R := rsum (fun i => jc p i k * resid p i)%R (seq 0 N).
  Definition accf (p : gparams) : accum :=
    mkAcc (err (par p)) (map (fun k => map (fun l => hes p k l) (seq 0 6)) (seq 0 6)) (map (gra p) (seq 0 6)).

  Lemma Forall2_fun {A B} (F : A -> B) (P : A -> B -> Prop) l vs : (forall a b, In a l -> (P a b <-> b = F a)) ->
    (Forall2 P l vs <-> vs = map F l).
  Proof.
    revert vs; induction l as [|a l IH]; intros vs H; split; intros E.
    - inversion E; auto.
    - subst; constructor.
    - inversion E; subst; cbn [map]; f_equal; [apply (H a); [left; auto | auto] | apply IH; auto; intros; apply H; right; auto].
    - subst; cbn [map]; constructor; [apply H; [left; auto | auto] | apply IH; auto; intros; apply H; right; auto].
  Qed.

  Lemma tot_all p : tot (acc0 :: map (one p) (seq 0 N)) = accf p.
  Proof.
    change (acc0 :: map (one p) (seq 0 N)) with ([acc0] ++ map (one p) (seq 0 N)).
    unfold tot, accf; f_equal.
    - cbn [app map]; rewrite map_map; change (rsuml (?a :: ?l)) with (a + rsuml l)%R; rewrite rsuml_rsum; cbn [a_sse acc0].
      rewrite Rplus_0_l; reflexivity.
    - apply map_ext_in; intros k Hk; apply in_seq in Hk; apply map_ext_in; intros l Hl; apply in_seq in Hl.
      cbn [app map]; rewrite map_map; change (rsuml (?a :: ?l)) with (a + rsuml l)%R; rewrite rsuml_rsum.
      replace (nth l (nth k (a_H acc0) []) 0%R) with 0%R.
      2: { unfold acc0; cbn [a_H]; destruct k as [|[|[|[|[|[|k]]]]]]; [..|lia]; destruct l as [|[|[|[|[|[|l]]]]]]; (reflexivity || lia). }
      rewrite Rplus_0_l; unfold hes; apply rsum_ext; intros i _; unfold one, jc; cbn [a_H].
      unfold jac; cbn [map]; destruct k as [|[|[|[|[|[|k]]]]]]; [..|lia]; destruct l as [|[|[|[|[|[|l]]]]]]; (reflexivity || lia).
    - apply map_ext_in; intros k Hk; apply in_seq in Hk.
      cbn [app map]; rewrite map_map; change (rsuml (?a :: ?l)) with (a + rsuml l)%R; rewrite rsuml_rsum.
      replace (nth k (a_g acc0) 0%R) with 0%R.
      2: { unfold acc0; cbn [a_g]; destruct k as [|[|[|[|[|[|k]]]]]]; (reflexivity || lia). }
      rewrite Rplus_0_l; unfold gra; apply rsum_ext; intros i _; unfold one, jc; cbn [a_g].
      unfold jac; cbn [map]; destruct k as [|[|[|[|[|[|k]]]]]]; (reflexivity || lia).
  Qed.
  Lemma acc_iff p a : regular p -> (lm_acc im p a <-> a = accf p).
  Proof.
    intros RP; unfold lm_acc, transform_reduces; rewrite count_N.
    assert (FF : forall vs, Forall2 (fun i a => lm_map im p i = Ok a) (seq 0 N) vs <-> vs = map (one p) (seq 0 N)).
    { intros vs; apply Forall2_fun; intros i b Hi; apply in_seq in Hi; rewrite lm_map_ok by (auto; lia); split; congruence. }
    assert (SH : Forall shape (acc0 :: map (one p) (seq 0 N))).
    { constructor; [apply acc0_shape|]; apply Forall_forall; intros x Hx; apply in_map_iff in Hx as (i & <- & _); apply one_shape. }
    split.
    - intros (vs & F & HRd); apply FF in F; subst vs; rewrite (reduces_acc _ _ HRd SH); apply tot_all.
    - intros ->; exists (map (one p) (seq 0 N)); split; [apply FF; auto|].
      destruct (reduces_exists acc_add (acc0 :: map (one p) (seq 0 N)) ltac:(discriminate)) as (r & Hr).
      rewrite <- (tot_all p), <- (reduces_acc _ _ Hr SH); auto.
  Qed.
  Lemma sse_iff p e : regular p -> (lm_sse im p e <-> e = err (par p)).
  Proof.
    intros RP; unfold lm_sse, transform_reduces; rewrite count_N.
    assert (FF : forall vs, Forall2 (fun i a => sse_map im p i = Ok a) (seq 0 N) vs <-> vs = map (fun i => resid p i * resid p i)%R (seq 0 N)).
    { intros vs; apply Forall2_fun; intros i b Hi; apply in_seq in Hi; rewrite sse_map_ok by (auto; lia); split; congruence. }
    assert (TE : rsuml (0%R :: map (fun i => resid p i * resid p i)%R (seq 0 N)) = err (par p)).
    { change (rsuml (?a :: ?l)) with (a + rsuml l)%R; rewrite rsuml_rsum, Rplus_0_l; reflexivity. }
    split.
    - intros (vs & F & HRd); apply FF in F; subst vs; rewrite (reduces_r _ _ HRd); auto.
    - intros ->; eexists; split; [apply FF; reflexivity|].
      destruct (reduces_exists Rplus (0%R :: map (fun i => resid p i * resid p i)%R (seq 0 N)) ltac:(discriminate)) as (r & Hr).
      rewrite <- TE, <- (reduces_r _ _ Hr); auto.
  Qed.

  (** the error is differentiable; its gradient is -2 g *)
  Lemma err_frechet p : regular p -> frechet 6 err (par p) (fun k => - 2 * gra p k)%R.
  Proof.
    intros RP; unfold err.
    eapply fr_grad.
    - apply (fr_sum 6 (fun i v => (zof i - hump v (xof i) (yof i)) * (zof i - hump v (xof i) (yof i)))%R (par p)
               (fun i k => - 2 * (jc p i k * resid p i))%R).
      intros i _.
      assert (D := fr_minus 6 _ _ (par p) _ _ (fr_const 6 (zof i) (par p)) (hump_frechet p (xof i) (yof i) RP)).
      eapply fr_grad; [exact (fr_mult 6 _ _ _ _ _ D D)|]; intros k _; cbv beta; unfold jc, resid; ring.
    - intros k _; cbv beta; unfold gra; rewrite rsum_scale; auto.
  Qed.
  Lemma err_ext v v' : (forall i, i < 6 -> v i = v' i) -> err v = err v'.
  Proof. intros E; unfold err; apply rsum_ext; intros i _; rewrite (hump_ext v v') by auto; auto. Qed.
  Lemma err_nonneg v : (0 <= err v)%R.
  Proof. apply rsum_nonneg; intros i _; apply Rle_0_sqr. Qed.
End Fit.
