(** PropHom.v - C54, C55, C80: homographies and their robust estimation. *)
From Coq Require Import Reals QArith Qcanon Qround Lia ZifyBool ZifyNat Ring Field Permutation Lra.
From Verif Require Import Base ImageModel ImageFacts BigSum OField LinModel LinProofs PropLin HomModel HomProofs WarpProofs JacobiModel PropJacobi.
Open Scope nat_scope.

(** ** C54 the linear system of a set of correspondences *)

(** the homogeneous image of a point under nine coefficients *)
Definition hom {K : ofield} (h : nat -> K) (r : nat) (p : point) : K :=
  fadd (fadd (fmul (h (3 * r)) (fnat K (fst p))) (fmul (h (3 * r + 1)) (fnat K (snd p)))) (h (3 * r + 2)).
(** the point (X / W, Y / W) is [q] *)
Definition projects_to {K : ofield} (h : nat -> K) (p q : point) : Prop :=
  fdiv (hom h 0 p) (hom h 2 p) = fnat K (fst q) /\ fdiv (hom h 1 p) (hom h 2 p) = fnat K (snd q).
(** row [i] of a matrix times a vector *)
Definition row_times {K : ofield} (f : nat -> nat -> K) (h : nat -> K) (i n : nat) : K := bsum f0 fadd (fun j => fmul (f i j) (h j)) (seq 0 n).

Section Rows.
  Variable K : ofield.
  Add Field KF3 : (f_field K).
  Open Scope field_scope.

  Lemma row_even points (h : nat -> K) i : (i < length points)%nat ->
    row_times (dlt_fun K points) h (2 * i) 9 =
      fnat K (fst (snd (nth i points ((0, 0), (0, 0))%nat))) * hom h 2 (fst (nth i points ((0, 0), (0, 0))%nat)) - hom h 0 (fst (nth i points ((0, 0), (0, 0))%nat)).
  Proof.
    intros Hi. unfold row_times, dlt_fun.
    replace ((2 * i) / 2)%nat with i by (apply (Nat.div_unique _ 2 i 0); lia).
    replace ((2 * i) mod 2)%nat with 0%nat by (apply (Nat.mod_unique _ 2 i 0); lia).
    cbn [Nat.eqb]. unfold dlt_row, bsum, hom. cbn [seq fold_left nth Nat.mul Nat.add]. ring.
  Qed.
  Lemma row_odd points (h : nat -> K) i : (i < length points)%nat ->
    row_times (dlt_fun K points) h (2 * i + 1) 9 =
      fnat K (snd (snd (nth i points ((0, 0), (0, 0))%nat))) * hom h 2 (fst (nth i points ((0, 0), (0, 0))%nat)) - hom h 1 (fst (nth i points ((0, 0), (0, 0))%nat)).
  Proof.
    intros Hi. unfold row_times, dlt_fun.
    replace ((2 * i + 1) / 2)%nat with i by (apply (Nat.div_unique _ 2 i 1); lia).
    replace ((2 * i + 1) mod 2)%nat with 1%nat by (apply (Nat.mod_unique _ 2 i 1); lia).
    cbn [Nat.eqb]. unfold dlt_row, bsum, hom. cbn [seq fold_left nth Nat.mul Nat.add]. ring.
  Qed.

  Lemma sub_zero (a b : K) : a - b = 0 <-> a = b.
  Proof. split; [intros E|intros ->; ring]. replace a with (a - b + b) by ring. rewrite E; ring. Qed.

  Lemma system_homogeneous points (h : nat -> K) :
    (forall i, (i < 2 * length points)%nat -> row_times (dlt_fun K points) h i 9 = 0) <->
    (forall p q, In (p, q) points -> hom h 0 p = fnat K (fst q) * hom h 2 p /\ hom h 1 p = fnat K (snd q) * hom h 2 p).
  Proof.
    split.
    - intros H p q Hpq. destruct (@In_nth (point * point) points _ ((0, 0), (0, 0))%nat Hpq) as (i & Hi & E).
      pose proof (row_even points h i Hi) as E0. pose proof (row_odd points h i Hi) as E1.
      rewrite H in E0 by lia. rewrite H in E1 by lia. rewrite E in E0, E1. cbn [fst snd] in *.
      split; symmetry; apply sub_zero; symmetry; auto.
    - intros H i Hi. pose proof (Nat.div_mod i 2 ltac:(lia)) as D. assert (M : (i mod 2 < 2)%nat) by (apply Nat.mod_upper_bound; lia).
      assert (Hd : (i / 2 < length points)%nat) by lia. set (k := (i / 2)%nat) in *.
      destruct (nth k points ((0, 0), (0, 0))%nat) as [p q] eqn:E.
      destruct (H p q) as [X Y]. { rewrite <- E. apply nth_In; auto. }
      destruct (i mod 2)%nat as [|[|?]]; [|clear M|lia].
      + replace i with (2 * k)%nat by lia. rewrite row_even, E by auto. cbn [fst snd]. apply sub_zero; auto.
      + replace i with (2 * k + 1)%nat by lia. rewrite row_odd, E by auto. cbn [fst snd]. apply sub_zero; auto.
  Qed.

  Lemma projects_iff (h : nat -> K) p q : hom h 2 p <> 0 ->
    (hom h 0 p = fnat K (fst q) * hom h 2 p /\ hom h 1 p = fnat K (snd q) * hom h 2 p <-> projects_to h p q).
  Proof.
    intros N. unfold projects_to. split; intros [A B].
    - rewrite A, B. split; field; auto.
    - rewrite <- A, <- B. split; field; auto.
  Qed.

  Lemma hom_div (h : nat -> K) s r p : s <> 0 -> hom (fun j => h (j / 3 * 3 + j mod 3)%nat / s) r p = hom h r p / s.
  Proof.
    intros N. unfold hom.
    assert (R : forall j, (j / 3 * 3 + j mod 3 = j)%nat) by (intros j; pose proof (Nat.div_mod j 3 ltac:(lia)); lia).
    rewrite !R. field. auto.
  Qed.
End Rows.

(** C54: two rows per correspondence, and nine coefficients that give every source point a non-zero denominator solve the
    system exactly when they project every source point to its destination *)
Theorem C54_rows :
  forall (K : ofield) points, exists A f, dlt_matrix K points = Ok A /\ MRepr A (2 * length points) 9 f /\
  forall h : nat -> K,
    ((forall i, i < 2 * length points -> row_times f h i 9 = f0) <->
     (forall p q, In (p, q) points -> hom h 0 p = fmul (fnat K (fst q)) (hom h 2 p) /\ hom h 1 p = fmul (fnat K (snd q)) (hom h 2 p))) /\
    ((forall p q, In (p, q) points -> hom h 2 p <> f0) ->
     ((forall i, i < 2 * length points -> row_times f h i 9 = f0) <-> (forall p q, In (p, q) points -> projects_to h p q))).
Proof.
  intros K points. destruct (dlt_matrix_ok K points) as (A & EA & MA). exists A, (dlt_fun K points). split; auto. split; auto.
  intros h. pose proof (system_homogeneous K points h) as S. split; auto.
  intros N. rewrite S. split; intros H p q Hpq; apply (projects_iff K h p q (N p q Hpq)); apply H; auto.
Qed.
Print Assumptions C54_rows.

(** C54: a successful call returns a matrix with last entry one; if the solver's answer solves the system then the matrix
    projects every source point (non-zero denominator) exactly to its destination *)
Theorem C54_exact :
  forall (K : ofield) (eps : K) solve points H H', fltb f0 eps = true ->
  compute_homography K eps solve points H = Ok (true, H') ->
  4 <= length points /\
  exists f, MRepr H' 3 3 f /\ f 2 2 = f1 /\
    ((forall A g h, dlt_matrix K points = Ok A -> MRepr A (2 * length points) 9 g -> solve A = Ok h ->
        forall i, i < 2 * length points -> row_times g (fun j => nth j h f0) i 9 = f0) ->
     forall p q, In (p, q) points -> hom (fun j => f (j / 3) (j mod 3)) 2 p <> f0 -> projects_to (fun j => f (j / 3) (j mod 3)) p q).
Proof.
  intros K eps solve points H H' He E. destruct (compute_homography_true K eps solve points H H' E) as (A & h & L & EA & Eh & L9 & Ee & M).
  split; auto. exists (fun i j => fdiv (nth (i * 3 + j) h f0) (nth 8 h f0)). split; auto.
  assert (N : nth 8 h f0 <> f0). { intros X. rewrite X, fabs_0 in Ee. congruence. }
  pose proof (f_field K) as FK. split.
  { cbn [Nat.mul Nat.add]. destruct FK as [FR _ Fd Fi]. rewrite Fd, (Rmul_comm FR). apply Fi; auto. }
  intros S p q Hpq Hw.
  destruct (dlt_matrix_ok K points) as (A' & EA' & MA). rewrite EA in EA'; injection EA' as <-.
  pose proof (S A _ h EA MA Eh) as Z. apply (proj1 (system_homogeneous K points _)) with (p := p) (q := q) in Z; auto.
  assert (Hh : forall r, r < 3 -> hom (fun j => fdiv (nth (j / 3 * 3 + j mod 3) h f0) (nth 8 h f0)) r p =
    fdiv (hom (fun j => nth j h f0) r p) (nth 8 h f0)).
  { intros r Hr. apply (hom_div K (fun j => nth j h f0)); auto. }
  apply (projects_iff K _ p q Hw). rewrite !Hh in * by lia. destruct Z as [Z1 Z2].
  destruct FK as [FR _ Fd _]. split; [rewrite Z1|rewrite Z2]; rewrite !Fd, (Rmul_assoc FR); auto.
Qed.
Print Assumptions C54_exact.

(** C54: fewer than four correspondences: no, and the matrix is left as it was *)
Theorem C54_few :
  forall (K : ofield) (eps : K) solve points H, length points < 4 -> compute_homography K eps solve points H = Ok (false, H).
Proof. intros; apply compute_homography_few; auto. Qed.
Print Assumptions C54_few.

(** where a matrix takes a point *)
Definition project {K : ofield} (f : nat -> nat -> K) (x y : K) : K * K :=
  (fdiv (lin K f 0 x y) (lin K f 2 x y), fdiv (lin K f 1 x y) (lin K f 2 x y)).

Section Scale.
  Variable K : ofield.
  Add Field KF4 : (f_field K).
  Open Scope field_scope.

  Definition diag (a b : K) : nat -> nat -> K := fset (fset (fset (fun _ _ => 0) 0 0 a) 1 1 b) 2 2 1.

  Lemma scale_forms f (a b c d x y : K) :
    lin K (mprod K (mprod K (diag c d) f) (diag a b)) 2 x y = lin K f 2 (a * x) (b * y) /\
    lin K (mprod K (mprod K (diag c d) f) (diag a b)) 0 x y = c * lin K f 0 (a * x) (b * y) /\
    lin K (mprod K (mprod K (diag c d) f) (diag a b)) 1 x y = d * lin K f 1 (a * x) (b * y).
  Proof. unfold lin, mprod, diag, fset. cbn [Nat.eqb andb]. repeat split; ring. Qed.

  Lemma scale_arg (a b x : K) : b <> 0 -> a / b * x = x * a / b.
  Proof. intros N. field. auto. Qed.
  Lemma scale_out (s t l w : K) : t <> 0 -> w <> 0 -> s / t * l / w = l / w * s / t.
  Proof. intros. field. auto. Qed.
End Scale.

(** C54: the scaled homography takes a point of the small first image, scaled up, through the original homography, scaled down
    to the small second image *)
Theorem C54_scale :
  forall (K : ofield) H f w1_full h1_full w1_small h1_small w2_full h2_full w2_small h2_small, MRepr H 3 3 f ->
  0 < w1_small -> 0 < h1_small -> 0 < w2_full -> 0 < h2_full ->
  exists G g, scale_homography K H w1_full h1_full w1_small h1_small w2_full h2_full w2_small h2_small = Ok G /\ MRepr G 3 3 g /\
  forall x y : K,
    let x_full := fdiv (fmul x (fnat K w1_full)) (fnat K w1_small) in
    let y_full := fdiv (fmul y (fnat K h1_full)) (fnat K h1_small) in
    lin K g 2 x y = lin K f 2 x_full y_full /\
    (lin K f 2 x_full y_full <> f0 ->
     project g x y = (fdiv (fmul (fst (project f x_full y_full)) (fnat K w2_small)) (fnat K w2_full),
                      fdiv (fmul (snd (project f x_full y_full)) (fnat K h2_small)) (fnat K h2_full))).
Proof.
  intros K H f w1f h1f w1s h1s w2f h2f w2s h2s MH P1 P2 P3 P4. unfold scale_homography.
  pose proof (mat_new_MRepr (f0 : K) 3 3) as R0.
  destruct (mat_set_ok _ 3 3 _ 0 0 (fdiv (fnat K w1f) (fnat K w1s)) R0) as (a1 & E1 & Q1); [lia|lia|]. rewrite E1; cbn [bind].
  destruct (mat_set_ok _ 3 3 _ 1 1 (fdiv (fnat K h1f) (fnat K h1s)) Q1) as (a2 & E2 & Q2); [lia|lia|]. rewrite E2; cbn [bind].
  destruct (mat_set_ok _ 3 3 _ 2 2 f1 Q2) as (a3 & E3 & Q3); [lia|lia|]. rewrite E3; cbn [bind].
  destruct (mat_set_ok _ 3 3 _ 0 0 (fdiv (fnat K w2s) (fnat K w2f)) R0) as (b1 & E4 & Q4); [lia|lia|]. rewrite E4; cbn [bind].
  destruct (mat_set_ok _ 3 3 _ 1 1 (fdiv (fnat K h2s) (fnat K h2f)) Q4) as (b2 & E5 & Q5); [lia|lia|]. rewrite E5; cbn [bind].
  destruct (mat_set_ok _ 3 3 _ 2 2 f1 Q5) as (b3 & E6 & Q6); [lia|lia|]. rewrite E6; cbn [bind].
  destruct (mult3_ok K b3 H _ _ Q6 MH) as (t & Et & Mt). rewrite Et; cbn [bind].
  destruct (mult3_ok K t a3 _ _ Mt Q3) as (G & EG & MG). exists G. eexists. split; [exact EG|]. split; [exact MG|].
  intros x y. set (xf := fdiv (fmul x (fnat K w1f)) (fnat K w1s)). set (yf := fdiv (fmul y (fnat K h1f)) (fnat K h1s)).
  pose proof (fnat_neq0 K w1s P1) as N1. pose proof (fnat_neq0 K h1s P2) as N2.
  pose proof (fnat_neq0 K w2f P3) as N3. pose proof (fnat_neq0 K h2f P4) as N4.
  change (MRepr G 3 3 (mprod K (mprod K (diag K (fdiv (fnat K w2s) (fnat K w2f)) (fdiv (fnat K h2s) (fnat K h2f))) f)
    (diag K (fdiv (fnat K w1f) (fnat K w1s)) (fdiv (fnat K h1f) (fnat K h1s))))) in MG.
  match goal with |- lin K ?g _ _ _ = _ /\ _ => change g with (mprod K (mprod K (diag K (fdiv (fnat K w2s) (fnat K w2f)) (fdiv (fnat K h2s) (fnat K h2f))) f)
    (diag K (fdiv (fnat K w1f) (fnat K w1s)) (fdiv (fnat K h1f) (fnat K h1s)))) end.
  set (g := mprod K (mprod K _ f) _).
  destruct (scale_forms K f (fdiv (fnat K w1f) (fnat K w1s)) (fdiv (fnat K h1f) (fnat K h1s)) (fdiv (fnat K w2s) (fnat K w2f)) (fdiv (fnat K h2s) (fnat K h2f)) x y)
    as (Z2 & Z0 & Z1). fold g in Z0, Z1, Z2. rewrite (scale_arg K (fnat K w1f) (fnat K w1s) x N1), (scale_arg K (fnat K h1f) (fnat K h1s) y N2) in Z0, Z1, Z2. fold xf yf in Z0, Z1, Z2.
  split; [exact Z2|]. intros NW. unfold project. cbn [fst snd]. rewrite Z0, Z1, Z2. f_equal; apply scale_out; auto.
Qed.
Print Assumptions C54_scale.

(** C54: with the library's own solver, in exact real arithmetic: if some unit vector of coefficients solves the system (for
    instance when every destination is the image of its source under one homography) and the scale is not below eps, then
    the sum of the squared algebraic errors of the returned matrix, times the square of the scale it was divided by, is at
    most the slack of the eigenvalue iteration, which is bounded as in C77 *)
Definition algebraic_error (f : nat -> nat -> R) (pq : point * point) : R :=
  let p := fst pq in let q := snd pq in
  let h := fun j => f (j / 3) (j mod 3) in
  (square (fnat Rfield (fst q) * @hom Rfield h 2 p - @hom Rfield h 0 p) + square (fnat Rfield (snd q) * @hom Rfield h 2 p - @hom Rfield h 1 p))%R.

Lemma sum_pairs (g : nat -> R) n : sum g (2 * n) = sum (fun k => g (2 * k)%nat + g (2 * k + 1)%nat)%R n.
Proof.
  induction n as [|n IH]; [reflexivity|]. replace (2 * S n) with (S (S (2 * n))) by lia.
  cbn [sum]. rewrite IH. replace (S (2 * n)) with (2 * n + 1) by lia. lra.
Qed.
Lemma sum_first (g : nat -> R) n : sum g (S n) = (g 0%nat + sum (fun k => g (S k)) n)%R.
Proof. induction n as [|n IH]; [cbn; lra|]. change (sum g (S (S n))) with (sum g (S n) + g (S n))%R. rewrite IH. cbn [sum]. lra. Qed.
Lemma sum_list (g : point * point -> R) points d : sum (fun k => g (nth k points d)) (length points) = fold_right (fun p a => (g p + a)%R) 0%R points.
Proof. induction points as [|p l IH]; [reflexivity|]. cbn [length fold_right]. rewrite sum_first, <- IH. reflexivity. Qed.
Lemma sum_eq (f g : nat -> R) n : (forall k, k < n -> f k = g k) -> sum f n = sum g n.
Proof. induction n as [|n IH]; intros H; [reflexivity|]. cbn [sum]. rewrite IH, H by auto. auto. Qed.
Lemma row_times_sum (f : nat -> nat -> R) h i : @row_times Rfield f h i 9 = sum (fun j => f i j * h j)%R 9.
Proof. reflexivity. Qed.

Theorem C54_svd :
  forall (eps : R) points H H' (v : nat -> R), (0 < eps)%R ->
  compute_homography Rfield eps svd_solve_ah_zero points H = Ok (true, H') ->
  unit_vector 9 v ->
  (forall p q, In (p, q) points -> @hom Rfield v 0 p = (fnat Rfield (fst q) * @hom Rfield v 2 p)%R /\ @hom Rfield v 1 p = (fnat Rfield (snd q) * @hom Rfield v 2 p)%R) ->
  exists f scale slack A g, MRepr H' 3 3 f /\ f 2 2 = 1%R /\ (eps <= Rabs scale)%R /\
    (fold_right (fun pq a => algebraic_error f pq + a) 0 points * square scale <= slack)%R /\
    dlt_matrix Rfield points = Ok A /\ MRepr A (2 * length points) 9 g /\
    ((slack <= 9 / 1000000000)%R \/
     (square slack <= (1 - 2 / 72) ^ 100 * off_diagonal 9 (fun i j => sum (fun k => g k i * g k j)%R (2 * length points)%nat))%R).
Proof.
  intros eps points H H' v He E Hv Hmap.
  destruct (compute_homography_true Rfield eps svd_solve_ah_zero points H H' E) as (A & h & L & EA & Eh & L9 & Ee & M).
  destruct (dlt_matrix_ok Rfield points) as (A' & EA' & MA). rewrite EA in EA'; injection EA' as <-.
  pose proof (proj2 (system_homogeneous Rfield points v) Hmap) as Z.
  destruct (C77_homogeneous A (2 * length points) 9 (dlt_fun Rfield points) v MA ltac:(lia) Hv) as (h' & slack & Eh' & Uh & B1 & B2).
  { intros k Hk. rewrite <- row_times_sum. apply Z; auto. }
  rewrite Eh in Eh'; injection Eh' as <-.
  set (s := nth 8 h 0%R) in *.
  exists (fun i j => (nth (i * 3 + j)%nat h 0 / s)%R), s, slack, A, (dlt_fun Rfield points).
  assert (Es : (eps <= Rabs s)%R).
  { destruct (Rlt_le_dec (Rabs s) eps) as [Lt|]; auto. exfalso. revert Ee. change (@fltb Rfield) with rltb. unfold s in Lt.
    rewrite (proj2 (rltb_spec _ _)); [discriminate|]. rewrite fabs_R. exact Lt. }
  assert (Ns : s <> 0%R) by (intros X; rewrite X, Rabs_R0 in Es; lra).
  split; [exact M|]. split; [change (s / s = 1)%R; field; auto|]. split; auto. split.
  - eapply Rle_trans; [|exact B1]. right. unfold length2_image. rewrite sum_pairs.
    rewrite <- (sum_list _ points ((0, 0), (0, 0))). rewrite Rmult_comm.
    assert (Sm : forall (g : nat -> R) c n, (c * sum g n = sum (fun k => c * g k) n)%R).
    { intros g c n; induction n as [|n IH]; cbn [sum]; [lra|]. rewrite <- IH; lra. }
    rewrite Sm. apply sum_eq. intros k Hk.
    pose proof (row_even Rfield points (fun j => nth j h 0%R) k Hk) as E0. pose proof (row_odd Rfield points (fun j => nth j h 0%R) k Hk) as E1.
    rewrite row_times_sum in E0, E1. cbv beta in *.
    etransitivity; [|symmetry; apply (f_equal2 Rplus (f_equal square E0) (f_equal square E1))]. clear E0 E1.
    unfold algebraic_error. destruct (nth k points ((0, 0), (0, 0))) as [p q]. cbn [fst snd].
    assert (D : forall r, @hom Rfield (fun j => (nth (j / 3 * 3 + j mod 3)%nat h 0 / s)%R) r p = (@hom Rfield (fun j => nth j h 0%R) r p / s)%R).
    { intros r. apply (hom_div Rfield (fun j => nth j h 0%R)); auto. }
    rewrite !D. change (@fsub Rfield) with Rminus. change (@fmul Rfield) with Rmult.
    generalize (@hom Rfield (fun j => nth j h 0%R) 0 p) (@hom Rfield (fun j => nth j h 0%R) 1 p) (@hom Rfield (fun j => nth j h 0%R) 2 p)
      (fnat Rfield (fst q)) (fnat Rfield (snd q)). cbn. intros X Y W a b. unfold square. field. auto.
  - split; auto. split; auto. destruct B2 as [B2|[_ B2]]; [left|right].
    + replace (INR 9) with 9%R in B2 by (cbn; lra). exact B2.
    + replace (INR 9) with 9%R in B2 by (cbn; lra). replace (2 / (9 * (9 - 1)))%R with (2 / 72)%R in B2 by lra. exact B2.
Qed.
Print Assumptions C54_svd.

(** A case: five correspondences of the translation by (2, 1) and a solver that gives a null vector of their system; the
    matrix found is that translation.  Scaled for pictures of half the size it is the translation by (1, 1/2). *)
Example C54_case :
  let points := [((0, 0), (2, 1)); ((3, 0), (5, 1)); ((0, 4), (2, 5)); ((3, 4), (5, 5)); ((7, 1), (9, 2))] in
  let h := map (fun z => qc z 1) [3; 0; 6; 0; 3; 3; 0; 0; 3]%Z in
  (exists A, dlt_matrix Qcfield points = Ok A /\ forall i, i < 10 -> row_times (fun i j => nth (i * 9 + j) (data A) (qc 0 1)) (fun j => nth j h (qc 0 1)) i 9 = qc 0 1) /\
  (exists H, compute_homography Qcfield (qc 1 1000) (fun _ => Ok h) points (mat_new (qc 0 1) 3 3) = Ok (true, H) /\
    map this (data H : list Qc) = [1; 0; 2; 0; 1; 1; 0; 0; 1]%Q /\
    exists G, scale_homography Qcfield H 4 4 2 2 4 4 2 2 = Ok G /\
      map this (data G : list Qc) = [1; 0; 1; 0; 1; 1 # 2; 0; 0; 1]%Q).
Proof.
  split.
  - eexists; split; [vm_compute; reflexivity|]. intros i Hi. do 10 (destruct i as [|i]; [vm_compute; reflexivity|]). lia.
  - eexists; split; [vm_compute; reflexivity|]. split; [vm_compute; reflexivity|]. eexists; split; [vm_compute; reflexivity|vm_compute; reflexivity].
Qed.
