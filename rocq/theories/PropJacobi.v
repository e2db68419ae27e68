(** PropJacobi.v - C76, C77: eigenvalues and the null-vector solver of linear_algebra.h, over the real numbers. *)
From Coq Require Import Reals Lra ZifyBool ZifyNat.
From Verif Require Import Base BigSum RSum OField LinModel LinProofs SolveProofs JacobiModel JacobiProofs.
Open Scope nat_scope.

(** ** specification *)
(** sum over i < n *)
Fixpoint sum (f : nat -> R) (n : nat) : R := match n with 0 => 0%R | S n => (sum f n + f n)%R end.
Definition delta (i j : nat) : R := if i =? j then 1%R else 0%R.
(** columns (and rows) form an orthonormal basis *)
Definition orthonormal (n : nat) (e : nat -> nat -> R) : Prop := forall a b, a < n -> b < n ->
  sum (fun k => e k a * e k b)%R n = delta a b /\ sum (fun k => e a k * e b k)%R n = delta a b.
(** squared length of A v - lambda v *)
Definition eigen_error (n : nat) (A : nat -> nat -> R) (v : nat -> R) (lambda : R) : R :=
  sum (fun k => (sum (fun l => A k l * v l) n - lambda * v k) * (sum (fun l => A k l * v l) n - lambda * v k))%R n.
(** sum of squares off the diagonal *)
Definition off_diagonal (n : nat) (A : nat -> nat -> R) : R := sum (fun i => sum (fun j => if i =? j then 0 else A i j * A i j)%R n) n.
Definition square (x : R) : R := (x * x)%R.
(** squared length of A v, for an r x n matrix *)
Definition length2_image (r n : nat) (A : nat -> nat -> R) (v : nat -> R) : R := sum (fun k => square (sum (fun i => A k i * v i)%R n)) r.
Definition unit_vector (n : nat) (v : nat -> R) : Prop := sum (fun k => v k * v k)%R n = 1%R.

Lemma sum_rsum f n : sum f n = rsum f (seq 0 n).
Proof.
  induction n as [|n IH]; [reflexivity|]; cbn [sum]; rewrite IH, seq_S, (bsum_app 0%R Rplus r0r rC rA); cbn [Nat.add].
  f_equal; unfold bsum; cbn; lra.
Qed.
Lemma sum_ext f g n : (forall i, i < n -> f i = g i) -> sum f n = sum g n.
Proof. intros H; rewrite !sum_rsum; apply rsum_ext; intros i Hi; apply in_seq in Hi; apply H; lia. Qed.
Lemma off_diagonal_off2 n A : off_diagonal n A = off2 n A.
Proof. unfold off_diagonal, off2; rewrite sum_rsum; apply rsum_ext; intros; apply sum_rsum. Qed.
Lemma orthonormal_inv n A d e : jac_inv n A d e -> orthonormal n e.
Proof.
  intros Inv a b Ha Hb; rewrite !sum_rsum; split; [apply (j_orth n A d e Inv); auto | apply (j_comp n A d e Inv); auto].
Qed.
Lemma eigen_error_residual n A e a x : eigen_error n A (fun k => e k a) x = residual n A e a x.
Proof.
  unfold eigen_error, residual; rewrite sum_rsum; apply rsum_ext; intros k _; rewrite !sum_rsum; auto.
Qed.

(** ** C76 *)
(** for every symmetric matrix: n values with an orthonormal basis; value a is the quadratic form of column a; and
    either every column is an eigenvector up to the tolerance, or all the rotations allowed were made and the total
    error has shrunk by the factor 1 - 2/(n(n-1)) for each of them *)
Theorem C76_eigen A n f max_iterations tolerance : MRepr A n n f -> (forall i j, i < n -> j < n -> f i j = f j i) ->
  2 <= n \/ (0 < tolerance)%R ->
  exists values E e, jacobi_eigen_solver A max_iterations tolerance = Ok (values, E) /\
    length values = n /\ MRepr E n n e /\ orthonormal n e /\
    (forall a, a < n -> nth a values 0%R = sum (fun k => sum (fun l => e k a * f k l * e l a)%R n) n) /\
    ((forall a, a < n -> (eigen_error n f (fun k => e k a) (nth a values 0%R) <= INR (n - 1) * square tolerance)%R) \/
     (2 <= n -> (sum (fun a => eigen_error n f (fun k => e k a) (nth a values 0%R)) n
       <= (1 - 2 / (INR n * (INR n - 1))) ^ Z.to_nat max_iterations * off_diagonal n f)%R)).
Proof.
  intros HA Sy Hok.
  destruct (jacobi_eigen_solver_spec A n f max_iterations tolerance HA Sy Hok) as (ev & E & e & d & HE & RE & L & HV & Inv & Hc).
  exists ev, E, e; split; auto; split; auto; split; auto; split; [apply (orthonormal_inv n f d); auto|].
  split.
  { intros a Ha; rewrite HV, (j_bil n f d e Inv a a) by auto; unfold bil; rewrite sum_rsum; apply rsum_ext; intros; rewrite sum_rsum; auto. }
  destruct Hc as [Hc|Hc]; [left | right].
  - intros a Ha; rewrite HV, eigen_error_residual, (residual_eq n f d e Sy Inv a) by auto.
    apply Rle_trans with (rsum (fun b => if a =? b then 0 else square tolerance)%R (seq 0 n)).
    + apply rsum_le; intros b Hb; apply in_seq in Hb; destruct (Nat.eqb_spec a b) as [->|N]; [lra|].
      assert (H : (Rabs (d a b) < tolerance)%R).
      { destruct (Nat.lt_ge_cases a b); [apply Hc; lia | rewrite (j_sym n f d e Inv a b) by lia; apply Hc; lia]. }
      unfold square; rewrite <- (Rabs_right (d a b * d a b)), Rabs_mult by (apply Rle_ge, Rle_0_sqr).
      pose proof (Rabs_pos (d a b)); apply Rmult_le_compat; lra.
    + rewrite (rsum_ext _ (fun b => square tolerance - (if a =? b then square tolerance else 0))%R) by (intros b _; destruct (a =? b); lra).
      rewrite rsum_sub, rsum_const, seq_length, (rsum_single (fun b => if a =? b then square tolerance else 0)%R n a) by
        (try lia; intros i _ Ni; apply not_eq_sym, Nat.eqb_neq in Ni; rewrite Ni; auto).
      rewrite Nat.eqb_refl, minus_INR by lia; cbn [INR]; lra.
  - intros Hn; rewrite off_diagonal_off2; apply Rle_trans with (2 := Hc Hn); right.
    rewrite <- (residual_sum n f d e Sy Inv), sum_rsum; apply rsum_ext; intros a Ha; apply in_seq in Ha.
    rewrite HV by lia; apply eigen_error_residual.
Qed.
Print Assumptions C76_eigen.

(** the reduction factor of C76_eigen is below one, so the bound does tend to zero *)
Theorem C76_rate n : 2 <= n -> (0 <= 1 - 2 / (INR n * (INR n - 1)) < 1)%R.
Proof. apply rate_bounds. Qed.
Print Assumptions C76_rate.

(** a matrix that is not square is rejected *)
Theorem C76_not_square A max_iterations tolerance : rows A <> cols A -> jacobi_eigen_solver A max_iterations tolerance = Throw RuntimeError.
Proof. intros H; unfold jacobi_eigen_solver; apply Nat.eqb_neq in H; rewrite H; auto. Qed.
Print Assumptions C76_not_square.

(** with fewer than two rows and a tolerance that is not positive the search position (0, 1) is outside the matrix *)
Theorem C76_small_refuted : exists A f, MRepr A 1 1 f /\ forall max_iterations tolerance, (0 < max_iterations)%Z -> (tolerance <= 0)%R ->
  jacobi_eigen_solver A max_iterations tolerance = UB.
Proof.
  exists (mkMatrix 1 1 [3%R]), (fun _ _ => 3%R); split.
  - split; [|split; [|split]]; auto; intros i j Hi Hj; replace i with 0 by lia; replace j with 0 by lia; auto.
  - intros it tol Hi Ht; unfold jacobi_eigen_solver; cbn [rows cols Nat.eqb negb].
    replace (Z.to_nat it) with (S (Z.to_nat it - 1)) by lia.
    unfold for_range at 1; cbn.
    unfold for_range; cbn [seq for_list]; unfold jacobi_scan, for_range; cbn.
    replace (rltb 0 tol) with false by (symmetry; apply rltb_false; auto).
    reflexivity.
Qed.
Print Assumptions C76_small_refuted.

(** ** C77 *)
(** the vector returned has length one and no unit vector makes A v shorter, up to the stopping rule of the iteration *)
Theorem C77_null_vector A r n f : MRepr A r n f -> 1 <= n ->
  exists h slack, svd_solve_ah_zero A = Ok h /\ length h = n /\ unit_vector n (fun i => nth i h 0%R) /\
    (forall v, unit_vector n v ->
      (length2_image r n f (fun i => nth i h 0) <= length2_image r n f v + slack)%R) /\
    (0 <= slack)%R /\
    ((slack <= INR n / 1000000000)%R \/
     (2 <= n /\ (square slack <= (1 - 2 / (INR n * (INR n - 1))) ^ 100 *
        off_diagonal n (fun i j => sum (fun k => f k i * f k j)%R r))%R)).
Proof.
  intros HA Hn; destruct (svd_spec A r n f HA Hn) as (h & d & e & Eh & L & Inv & (a & Ha & Hh & Hm) & Hc).
  assert (G : forall v, length2_image r n f v = bil n (gram r f) v v).
  { intros v; rewrite <- norm2_bil; unfold length2_image, norm2_image, square; rewrite sum_rsum; apply rsum_ext; intros k _; rewrite !sum_rsum; auto. }
  assert (Sy : forall i j, i < n -> j < n -> gram r f i j = gram r f j i) by (intros i j _ _; apply rsum_ext; intros k _; ring).
  pose proof (off2_nonneg n d) as O0.
  exists h, (sqrt (off2 n d)); split; auto; split; auto; split; [|split; [|split]].
  - unfold unit_vector; rewrite (sum_ext _ (fun k => e k a * e k a)%R) by (intros; rewrite Hh; auto).
    rewrite sum_rsum; pose proof (j_orth n _ d e Inv a a Ha Ha) as H; rewrite Nat.eqb_refl in H; exact H.
  - intros v Hv; rewrite !G, (bil_ext n _ _ _ (fun k => e k a) (fun k => e k a)), <- (j_bil n _ d e Inv) by auto.
    apply (rayleigh_sqrt n _ d e Sy Inv); auto; unfold unit_vector in Hv; rewrite sum_rsum in Hv; auto.
  - apply sqrt_pos.
  - assert (N1 : (1 <= INR n)%R) by (change 1%R with (INR 1); apply le_INR; auto).
    assert (C : (forall i j, i < j < n -> (Rabs (d i j) < / 1000000000)%R) \/ 2 <= n).
    { destruct (Nat.eq_dec n 1) as [->|]; [left; intros; lia | right; lia]. }
    assert (Near : (forall i j, i < j < n -> (Rabs (d i j) < / 1000000000)%R) -> (sqrt (off2 n d) <= INR n / 1000000000)%R).
    { intros H; assert (H' : forall i j, i < j < n -> (Rabs (d i j) <= / 1000000000)%R) by (intros i j Hij; left; auto).
      assert (B := off2_bound n d (/ 1000000000) (j_sym n _ d e Inv) ltac:(lra) H').
      rewrite <- (sqrt_square (INR n / 1000000000)) by lra; apply sqrt_le_1_alt; nra. }
    destruct Hc as [Hc|Hc]; [left; auto|]; destruct C as [C|C]; [left; auto|]; right; split; auto.
    unfold square; rewrite sqrt_sqrt by auto; rewrite off_diagonal_off2; apply Rle_trans with (1 := Hc C); right.
    unfold rate; f_equal; unfold off2; apply rsum_ext; intros i _; apply rsum_ext; intros j _; destruct (i =? j); auto.
    rewrite !sum_rsum; auto.
Qed.
Print Assumptions C77_null_vector.

(** in particular, when some unit vector is mapped to zero the result is nearly mapped to zero *)
Theorem C77_homogeneous A r n f v : MRepr A r n f -> 1 <= n -> unit_vector n v ->
  (forall k, k < r -> sum (fun i => f k i * v i)%R n = 0%R) ->
  exists h slack, svd_solve_ah_zero A = Ok h /\ unit_vector n (fun i => nth i h 0%R) /\
    (length2_image r n f (fun i => nth i h 0) <= slack)%R /\
    ((slack <= INR n / 1000000000)%R \/
     (2 <= n /\ (square slack <= (1 - 2 / (INR n * (INR n - 1))) ^ 100 * off_diagonal n (fun i j => sum (fun k => f k i * f k j)%R r))%R)).
Proof.
  intros HA Hn Hv H0; destruct (C77_null_vector A r n f HA Hn) as (h & w & E & _ & U & M & _ & B).
  exists h, w; split; auto; split; auto; split; auto.
  specialize (M v Hv); replace (length2_image r n f v) with 0%R in M; [lra|].
  symmetry; unfold length2_image; rewrite (sum_ext _ (fun _ => 0%R)) by (intros k Hk; rewrite H0 by auto; unfold square; ring).
  rewrite sum_rsum; apply rsum_zero; auto.
Qed.
Print Assumptions C77_homogeneous.

(** ** cases *)
Definition jac_f (i j : nat) : R := if i =? j then 2%R else 1%R.
Definition jac_A : matrix R := mkMatrix 2 2 [2; 1; 1; 2]%R.
Lemma jac_repr : MRepr jac_A 2 2 jac_f.
Proof.
  split; [|split; [|split]]; auto; intros i j Hi Hj.
  assert (Ci : i = 0 \/ i = 1) by lia; assert (Cj : j = 0 \/ j = 1) by lia; destruct Ci, Cj; subst; reflexivity.
Qed.

Example C76_case : exists values E e, jacobi_eigen_solver jac_A 100 (/ 1000) = Ok (values, E) /\ length values = 2 /\ MRepr E 2 2 e /\
  orthonormal 2 e.
Proof.
  destruct (C76_eigen jac_A 2 jac_f 100 (/ 1000) jac_repr) as (v & E & e & H1 & H2 & H3 & H4 & _).
  - intros i j _ _; unfold jac_f; rewrite Nat.eqb_sym; auto.
  - left; lia.
  - exists v, E, e; auto.
Qed.

(** one equation x + y = 0 in two unknowns has a unit solution *)
Example C77_case : exists A f v, MRepr A 1 2 f /\ unit_vector 2 v /\ (forall k, k < 1 -> sum (fun i => f k i * v i)%R 2 = 0%R) /\
  exists h, svd_solve_ah_zero A = Ok h.
Proof.
  set (A := mkMatrix 1 2 [3; 4]%R); set (f := fun _ j : nat => if j =? 0 then 3%R else 4%R).
  assert (HR : MRepr A 1 2 f).
  { split; [|split; [|split]]; auto; intros i j Hi Hj; replace i with 0 by lia.
    assert (Cj : j = 0 \/ j = 1) by lia; destruct Cj; subst; reflexivity. }
  exists A, f, (fun j => if j =? 0 then (4 / 5)%R else (- (3 / 5))%R); split; auto; split; [|split].
  - unfold unit_vector; cbn; lra.
  - intros k _; cbn; lra.
  - destruct (C77_null_vector A 1 2 f HR ltac:(lia)) as (h & w & E & _); exists h; auto.
Qed.
