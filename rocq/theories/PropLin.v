(** PropLin.v - property theorems C42-C45 (matrices and linear systems).

    [MRepr m r c f]: [m] is an r x c matrix with entry [f i j] in row i and column j.  Floating point is exact
    arithmetic in an ordered field. *)
From Coq Require Import ZifyBool ZifyNat Ring Field QArith Qcanon.
From Verif Require Import Base ImageModel ImageFacts PixelModel PixelProofs BigSum OField LinModel LinProofs SolveProofs.
Open Scope nat_scope.

(** ** C42 *)
Theorem C42_transpose :
  forall (A : Type) (z : A) (m : matrix A), mat_wf m ->
  exists t, transpose z m = Ok t /\ rows t = cols m /\ cols t = rows m /\
    (forall i j, i < rows m -> j < cols m -> mat_at t j i = mat_at m i j) /\
    transpose z t = Ok m.
Proof.
  intros A z m W; pose proof (mat_wf_MRepr z m W) as R.
  destruct (transpose_spec z m _ _ _ R) as (t & E & T); exists t; split; auto.
  pose proof T as (Tr & Tc & _); split; auto; split; auto; split.
  - intros i j Hi Hj; rewrite (mat_at_ok _ _ _ _ _ _ R), (mat_at_ok _ _ _ _ _ _ T); auto.
  - destruct (transpose_spec z t _ _ _ T) as (m' & -> & R'); f_equal; eapply MRepr_eq; eauto.
Qed.
Print Assumptions C42_transpose.

Theorem C42_multiply :
  forall (A : Type) (z : A) (add mul : A -> A -> A) a b r n c f g, MRepr a r n f -> MRepr b n c g ->
  exists m, multiply z add mul a b = Ok m /\
    MRepr m r c (fun i j => bsum z add (fun k => mul (f i k) (g k j)) (seq 0 n)).
Proof. intros; apply multiply_spec; auto. Qed.
Print Assumptions C42_multiply.

Theorem C42_mismatch :
  forall (A : Type) (z : A) (add mul : A -> A -> A) a b, cols a <> rows b -> multiply z add mul a b = Throw RuntimeError.
Proof. intros A z add mul a b N; unfold multiply; apply Nat.eqb_neq in N; rewrite N; reflexivity. Qed.
Print Assumptions C42_mismatch.

Section Ring.
  Context {A : Type} {z o : A} {add mul sub : A -> A -> A} {opp : A -> A}.
  Hypothesis RT : ring_theory z o add mul sub opp (@eq A).
  Add Ring AR : RT.
  Notation sum := (bsum z add).

  Lemma add_z a : add a z = a. Proof. ring. Qed.
  Lemma add_c a b : add a b = add b a. Proof. ring. Qed.
  Lemma add_a a b c : add a (add b c) = add (add a b) c. Proof. ring. Qed.

  Lemma rsum_mul_r {I} (f : I -> A) k l : mul (sum f l) k = sum (fun i => mul (f i) k) l.
  Proof.
    induction l as [|i l IH]; [unfold bsum; cbn; ring|].
    rewrite !(bsum_cons z add add_z add_c add_a), <- IH; ring.
  Qed.
  Lemma rsum_mul_l {I} (f : I -> A) k l : mul k (sum f l) = sum (fun i => mul k (f i)) l.
  Proof.
    induction l as [|i l IH]; [unfold bsum; cbn; ring|].
    rewrite !(bsum_cons z add add_z add_c add_a), <- IH; ring.
  Qed.

  (** transpose (A B) = transpose B * transpose A *)
  Lemma transpose_product a b : mat_wf a -> mat_wf b -> cols a = rows b ->
    exists ab, multiply z add mul a b = Ok ab /\
    exists ta tb p, transpose z a = Ok ta /\ transpose z b = Ok tb /\ transpose z ab = Ok p /\ multiply z add mul tb ta = Ok p.
  Proof.
    intros Wa Wb E; pose proof (mat_wf_MRepr z a Wa) as Ra; pose proof (mat_wf_MRepr z b Wb) as Rb; rewrite E in Ra.
    destruct (multiply_spec z add mul _ _ _ _ _ _ _ Ra Rb) as (ab & Eab & Rab); exists ab; split; auto.
    destruct (transpose_spec z _ _ _ _ Ra) as (ta & Eta & Rta); destruct (transpose_spec z _ _ _ _ Rb) as (tb & Etb & Rtb).
    destruct (transpose_spec z _ _ _ _ Rab) as (p & Ep & Rp); destruct (multiply_spec z add mul _ _ _ _ _ _ _ Rtb Rta) as (q & Eq & Rq).
    exists ta, tb, p; do 3 (split; auto); rewrite Eq; f_equal; eapply MRepr_eq; eauto.
    intros i j Hi Hj; cbv beta; apply bsum_ext; intros k _; ring.
  Qed.

  (** (A B) C = A (B C) *)
  Lemma multiply_assoc a b c : mat_wf a -> mat_wf b -> mat_wf c -> cols a = rows b -> cols b = rows c ->
    exists ab bc p, multiply z add mul a b = Ok ab /\ multiply z add mul b c = Ok bc /\
      multiply z add mul ab c = Ok p /\ multiply z add mul a bc = Ok p.
  Proof.
    intros Wa Wb Wc E1 E2; pose proof (mat_wf_MRepr z a Wa) as Ra; pose proof (mat_wf_MRepr z b Wb) as Rb; pose proof (mat_wf_MRepr z c Wc) as Rc.
    rewrite E1 in Ra; rewrite E2 in Rb.
    destruct (multiply_spec z add mul _ _ _ _ _ _ _ Ra Rb) as (ab & Eab & Rab); destruct (multiply_spec z add mul _ _ _ _ _ _ _ Rb Rc) as (bc & Ebc & Rbc).
    destruct (multiply_spec z add mul _ _ _ _ _ _ _ Rab Rc) as (p & Ep & Rp); destruct (multiply_spec z add mul _ _ _ _ _ _ _ Ra Rbc) as (q & Eq & Rq).
    exists ab, bc, p; do 3 (split; auto); rewrite Eq; f_equal; eapply MRepr_eq; eauto.
    intros i j Hi Hj; cbv beta.
    rewrite (bsum_ext z add _ _ _ (fun k _ => rsum_mul_l _ _ _)).
    symmetry; rewrite (bsum_ext z add _ _ _ (fun k _ => rsum_mul_r _ _ _)).
    rewrite (bsum_swap z add add_z add_c add_a); apply bsum_ext; intros k _; apply bsum_ext; intros l _; ring.
  Qed.

  Lemma multiply_identity a ir ic : mat_wf a ->
    MRepr ir (rows a) (rows a) (fun i j => if i =? j then o else z) -> MRepr ic (cols a) (cols a) (fun i j => if i =? j then o else z) ->
    multiply z add mul ir a = Ok a /\ multiply z add mul a ic = Ok a.
  Proof.
    intros W R1 R2; pose proof (mat_wf_MRepr z a W) as R; split.
    - destruct (multiply_spec z add mul _ _ _ _ _ _ _ R1 R) as (m & -> & Rm); f_equal; eapply MRepr_eq; eauto.
      intros i j Hi Hj; cbv beta; rewrite (bsum_single z add add_z add_c add_a _ _ i); [rewrite Nat.eqb_refl; ring | apply seq_NoDup | apply in_seq; lia |].
      intros k _ Nk; apply not_eq_sym, Nat.eqb_neq in Nk; rewrite Nk; ring.
    - destruct (multiply_spec z add mul _ _ _ _ _ _ _ R R2) as (m & -> & Rm); f_equal; eapply MRepr_eq; eauto.
      intros i j Hi Hj; cbv beta; rewrite (bsum_single z add add_z add_c add_a _ _ j); [rewrite Nat.eqb_refl; ring | apply seq_NoDup | apply in_seq; lia |].
      intros k _ Nk; apply Nat.eqb_neq in Nk; rewrite Nk; ring.
  Qed.
End Ring.

Theorem C42_transpose_product :
  forall (A : Type) (z o : A) add mul sub opp (RT : ring_theory z o add mul sub opp (@eq A)) a b,
  mat_wf a -> mat_wf b -> cols a = rows b ->
  exists ab, multiply z add mul a b = Ok ab /\
  exists ta tb p, transpose z a = Ok ta /\ transpose z b = Ok tb /\ transpose z ab = Ok p /\ multiply z add mul tb ta = Ok p.
Proof. intros A z o add mul sub opp RT a b; apply (transpose_product RT). Qed.
Print Assumptions C42_transpose_product.

Theorem C42_associative :
  forall (A : Type) (z o : A) add mul sub opp (RT : ring_theory z o add mul sub opp (@eq A)) a b c,
  mat_wf a -> mat_wf b -> mat_wf c -> cols a = rows b -> cols b = rows c ->
  exists ab bc p, multiply z add mul a b = Ok ab /\ multiply z add mul b c = Ok bc /\
    multiply z add mul ab c = Ok p /\ multiply z add mul a bc = Ok p.
Proof. intros A z o add mul sub opp RT a b c; apply (multiply_assoc RT). Qed.
Print Assumptions C42_associative.

Theorem C42_identity :
  forall (A : Type) (z o : A) add mul sub opp (RT : ring_theory z o add mul sub opp (@eq A)) a ir ic,
  mat_wf a -> MRepr ir (rows a) (rows a) (fun i j => if i =? j then o else z) ->
  MRepr ic (cols a) (cols a) (fun i j => if i =? j then o else z) ->
  multiply z add mul ir a = Ok a /\ multiply z add mul a ic = Ok a.
Proof. intros A z o add mul sub opp RT a ir ic; apply (multiply_identity RT). Qed.
Print Assumptions C42_identity.

Example C42_case :
  let a := mkMatrix 2 3 [1; 2; 3; 4; 5; 6]%Z in
  mat_wf a /\ transpose 0%Z a = Ok (mkMatrix 3 2 [1; 4; 2; 5; 3; 6]%Z) /\
  multiply 0%Z Z.add Z.mul a (mkMatrix 3 2 [1; 4; 2; 5; 3; 6]%Z) = Ok (mkMatrix 2 2 [14; 32; 32; 77]%Z) /\
  multiply 0%Z Z.add Z.mul a a = Throw RuntimeError.
Proof. repeat split. Qed.

(** ** C43 *)
Definition entry {A} (d : A) (m : matrix A) (i j : nat) : A := nth (i * cols m + j) (data m) d.

Section Inverse.
  Variable K : ofield.
  Add Field KF : (f_field K).
  Open Scope field_scope.

  (** the determinant: sum over the six permutations of three columns *)
  Definition det3 (f : nat -> nat -> K) : K :=
    f 0%nat 0%nat * f 1%nat 1%nat * f 2%nat 2%nat + f 0%nat 1%nat * f 1%nat 2%nat * f 2%nat 0%nat + f 0%nat 2%nat * f 1%nat 0%nat * f 2%nat 1%nat
    - f 0%nat 2%nat * f 1%nat 1%nat * f 2%nat 0%nat - f 0%nat 1%nat * f 1%nat 0%nat * f 2%nat 2%nat - f 0%nat 0%nat * f 1%nat 2%nat * f 2%nat 1%nat.

  Lemma mat_det3_spec m f : MRepr m 3 3 f -> mat_det3 K m = Ok (det3 f).
  Proof.
    intros R; unfold mat_det3; do 9 (rewrite (mat_at_ok _ _ _ _ _ _ R) by lia; cbn [bind]); f_equal; unfold det3; ring.
  Qed.

  Definition mprod (f g : nat -> nat -> K) : nat -> nat -> K := fun i j => f i 0%nat * g 0%nat j + f i 1%nat * g 1%nat j + f i 2%nat * g 2%nat j.

  Lemma det3_mprod f g : det3 (mprod f g) = det3 f * det3 g.
  Proof. unfold det3, mprod; ring. Qed.

  Lemma det3_ext (f g : nat -> nat -> K) :
    det3 (fun i j => bsum f0 fadd (fun k => f i k * g k j) (seq 0 3)) = det3 (mprod f g).
  Proof. unfold det3, mprod, bsum; cbn [seq fold_left]; ring. Qed.

  Lemma determinant_image (im : image K) f : Repr im 3 3 f -> determinant3x3 K im = Ok (det3 (fun i j => f j i)).
  Proof.
    intros R; unfold determinant3x3; do 9 (rewrite (at_Repr _ _ _ _ _ _ R) by lia; cbn [bind]); f_equal; unfold det3; ring.
  Qed.

  Lemma lt3 i : (i < 3)%nat -> i = 0%nat \/ i = 1%nat \/ i = 2%nat.
  Proof. lia. Qed.

  Lemma invert_spec eps m f : MRepr m 3 3 f -> (0 <? eps) = true -> (fabs (det3 f) <? eps) = false ->
    exists v g, invert K eps m = Ok v /\ MRepr v 3 3 g /\
      (forall i j, (i < 3)%nat -> (j < 3)%nat -> mprod f g i j = if (i =? j)%nat then 1 else 0) /\
      (forall i j, (i < 3)%nat -> (j < 3)%nat -> mprod g f i j = if (i =? j)%nat then 1 else 0).
  Proof.
    intros R He Hd; pose proof R as (Er & Ec & _); unfold invert; rewrite Er, Ec; cbn [Nat.eqb negb orb].
    rewrite (mat_det3_spec m f R); cbn [bind]; rewrite Hd.
    assert (N : det3 f <> 0) by (intros E; rewrite E, fabs_0 in Hd; congruence).
    do 9 (rewrite (mat_at_ok _ _ _ _ _ _ R) by lia; cbn [bind]).
    pose proof (mat_new_MRepr (0 : K) 3 3) as R0.
    do 8 (match goal with Hr : MRepr ?mm 3 3 ?ff |- context [mat_set ?mm ?a ?b ?v] =>
      let m' := fresh "m" in let E := fresh in let R' := fresh "R" in
      destruct (mat_set_ok mm 3 3 ff a b v Hr) as (m' & E & R'); [lia | lia |]; rewrite E; cbn [bind]; clear E end).
    match goal with Hr : MRepr ?mm 3 3 ?ff |- context [mat_set ?mm ?a ?b ?v] =>
      destruct (mat_set_ok mm 3 3 ff a b v Hr) as (mf & Ef & Rf); [lia | lia |] end.
    rewrite Ef; eexists; eexists; split; [reflexivity|]; split; [exact Rf|].
    unfold det3 in N.
    split; intros i j Hi Hj; apply lt3 in Hi as [->|[->| ->]]; apply lt3 in Hj as [->|[->| ->]];
      unfold mprod, fset, det3; cbn [Nat.eqb andb]; field; exact N.
  Qed.
End Inverse.

(** a 3 x 3 matrix is inverted exactly; a determinant below eps (1e-9) in magnitude gives the empty matrix *)
Theorem C43_inverse :
  forall (K : ofield) (eps : K) m f, MRepr m 3 3 f -> fltb f0 eps = true ->
  (fltb (fabs (det3 K f)) eps = true -> invert K eps m = Ok mat_default) /\
  (fltb (fabs (det3 K f)) eps = false ->
   exists v g, invert K eps m = Ok v /\ MRepr v 3 3 g /\ mat_empty v = false /\
     (forall i j, i < 3 -> j < 3 -> mprod K f g i j = if i =? j then f1 else f0) /\
     (forall i j, i < 3 -> j < 3 -> mprod K g f i j = if i =? j then f1 else f0)).
Proof.
  intros K eps m f R He; split; intros Hd.
  - pose proof R as (Er & Ec & _); unfold invert; rewrite Er, Ec; cbn [Nat.eqb negb orb].
    rewrite (mat_det3_spec K m f R); cbn [bind]; rewrite Hd; reflexivity.
  - destruct (invert_spec K eps m f R He Hd) as (v & g & E & Rv & H1 & H2); exists v, g; repeat (split; auto).
    all: try (destruct Rv as (? & ? & ? & ?); auto; fail).
    destruct Rv as (Er & Ec & _); unfold mat_empty; rewrite Er, Ec; reflexivity.
Qed.
Print Assumptions C43_inverse.

Theorem C43_wrong_size :
  forall (K : ofield) (eps : K) m, rows m <> 3 \/ cols m <> 3 -> invert K eps m = Throw RuntimeError.
Proof.
  intros K eps m H; unfold invert; destruct (Nat.eqb_spec (rows m) 3), (Nat.eqb_spec (cols m) 3); cbn [negb orb]; auto; tauto.
Qed.
Print Assumptions C43_wrong_size.

(** an invertible matrix may be reported as singular: the test is on the determinant, which scales with the cube of the entries *)
Theorem C43_small_entries_refuted :
  exists m, invert Qcfield (qc 1 1000000000) m = Ok mat_default /\
    m = mkMatrix 3 3 [qc 1 2000; qc 0 1; qc 0 1; qc 0 1; qc 1 2000; qc 0 1; qc 0 1; qc 0 1; qc 1 2000].
Proof. eexists; split; [|reflexivity]; vm_compute; reflexivity. Qed.
Print Assumptions C43_small_entries_refuted.

(** determinant3x3 of an image, and its product rule *)
Theorem C43_determinant :
  forall (K : ofield) (im : image K) f, Repr im 3 3 f -> determinant3x3 K im = Ok (det3 K (fun i j => f j i)).
Proof. intros; apply determinant_image; auto. Qed.
Print Assumptions C43_determinant.

Theorem C43_determinant_product :
  forall (K : ofield) a b f g, MRepr a 3 3 f -> MRepr b 3 3 g ->
  exists ab h, multiply f0 fadd fmul a b = Ok ab /\ MRepr ab 3 3 h /\ det3 K h = fmul (det3 K f) (det3 K g).
Proof.
  intros K a b f g Ra Rb; destruct (multiply_spec f0 fadd fmul a b 3 3 3 f g Ra Rb) as (ab & E & R).
  eexists; eexists; split; [exact E|]; split; [exact R|]; rewrite <- det3_mprod; apply det3_ext.
Qed.
Print Assumptions C43_determinant_product.

Example C43_case :
  let m := mkMatrix 3 3 [qc 2 1; qc 0 1; qc 0 1; qc 1 1; qc 1 1; qc 0 1; qc 0 1; qc 0 1; qc 4 1] in
  bind (invert Qcfield (qc 1 1000000000) m) (fun v => Ok (rows v, cols v, map this (data v))) =
    Ok (3, 3, [1 # 2; 0; 0; -1 # 2; 1; 0; 0; 0; 1 # 4]%Q).
Proof. vm_compute; reflexivity. Qed.

(** ** C44 *)
(** integral (and non-arithmetic) element types: exact *)
Theorem C44_exact :
  forall (A : Type) (eqb : A -> A -> bool) (z : A) m, (forall a b, eqb a b = true <-> a = b) -> mat_wf m ->
  exists ok, is_symmetry (fun a b => negb (eqb a b)) m = Ok ok /\ (ok = true <-> transpose z m = Ok m).
Proof.
  intros A eqb z m HE W; pose proof (mat_wf_MRepr z m W) as R.
  destruct (is_symmetry_spec (fun a b => negb (eqb a b)) m _ _ _ R) as (ok & E & S); exists ok; split; auto; rewrite S.
  destruct (transpose_spec z m _ _ _ R) as (t & Et & T); rewrite Et.
  assert (HE' : forall a b, negb (eqb a b) = false <-> a = b) by (intros; rewrite negb_false_iff; apply HE).
  split.
  - intros [Er H]; f_equal; rewrite <- Er in *; eapply MRepr_eq; [exact T | exact R|]; intros i j Hi Hj; cbv beta.
    destruct (Nat.lt_trichotomy i j) as [L|[->|L]]; auto.
    + symmetry; apply HE'; apply (H i j); lia.
    + apply HE'; apply (H j i); lia.
  - intros Em; injection Em as ->; pose proof T as (Tr & Tc & _); split; auto.
    intros i j Hij; apply HE'; destruct T as (_ & _ & _ & T4), R as (_ & _ & _ & R4).
    specialize (T4 i j); specialize (R4 i j); rewrite Tr in T4, R4, Hij.
    specialize (T4 ltac:(lia) ltac:(lia)); specialize (R4 ltac:(lia) ltac:(lia)); congruence.
Qed.
Print Assumptions C44_exact.

(** floating point: up to a tolerance (1e-6) per pair *)
Theorem C44_tolerance_partial :
  forall (K : ofield) (eps : K) m r c f, MRepr m r c f ->
  exists ok, is_symmetry (fun a b => fltb eps (fabs (fsub a b))) m = Ok ok /\
    (ok = true <-> r = c /\ forall i j, i < j < r -> fltb eps (fabs (fsub (f i j) (f j i))) = false).
Proof. intros K eps m r c f R; exact (is_symmetry_spec (fun a b => fltb eps (fabs (fsub a b))) m r c f R). Qed.
Print Assumptions C44_tolerance_partial.

Theorem C44_tolerance_refuted :
  exists m t, is_symmetry (fun a b : Qcfield => fltb (qc 1 1000000) (fabs (fsub a b))) m = Ok true /\
    transpose (f0 : Qcfield) m = Ok t /\ data t <> data m.
Proof.
  exists (mkMatrix 2 2 [qc 1 1; qc 1 10000000; qc 0 1; qc 1 1]); eexists; split; [vm_compute; reflexivity|]; split; [reflexivity|].
  cbn [data]; intros E; apply (f_equal (fun l : list Qc => Qeq_bool (this (nth 1 l (Q2Qc 5))) 0)) in E; vm_compute in E; discriminate.
Qed.
Print Assumptions C44_tolerance_refuted.

(** every execution policy gives the sequential result *)
Theorem C44_policy :
  forall (A : Type) (differ : A -> A -> bool) (z : A) s m, sched1_ok s -> mat_wf m ->
  is_symmetry_policy differ s m = is_symmetry differ m.
Proof. intros A differ z s m Hs W; eapply is_symmetry_policy_spec; eauto; apply (mat_wf_MRepr z); auto. Qed.
Print Assumptions C44_policy.

(** images: rows are lines, columns are positions in a line; other dimensionalities throw *)
Theorem C44_image :
  forall (A : Type) (eqb : A -> A -> bool) (z : A) im w h f, (forall a b, eqb a b = true <-> a = b) -> Repr im w h f ->
  exists ok, is_symmetry_image z (fun a b => negb (eqb a b)) im = Ok ok /\
    (ok = true <-> w = h /\ forall x y, x < w -> y < h -> f x y = f y x).
Proof.
  intros A eqb z im w h f HE R; pose proof R as (D & _ & _); unfold is_symmetry_image.
  unfold get_dimensionality; rewrite D; cbn [length Nat.eqb negb].
  rewrite (get_height_Repr _ _ _ _ R), (get_width_Repr _ _ _ _ R); cbn [bind].
  destruct (mfill_grid z h w (fun p => p) (fun y x => f x y)
    (fun r c m => let* v := atu im [c; r] in mat_set m r c v) h w (fun i j => f j i)) as (m & -> & Rm); auto.
  - intros y x s g Hy Hx _; rewrite (atu_Repr _ _ _ _ _ _ R) by auto; reflexivity.
  - intros i j Hi Hj; exists i, j; auto.
  - cbn [bind]; destruct (is_symmetry_spec (fun a b => negb (eqb a b)) m _ _ _ Rm) as (ok & -> & S); exists ok; split; auto; rewrite S.
    assert (HE' : forall a b, negb (eqb a b) = false <-> a = b) by (intros; rewrite negb_false_iff; apply HE).
    split.
    + intros [-> H]; split; auto; intros x y Hx Hy; destruct (Nat.lt_trichotomy x y) as [L|[->|L]]; auto.
      * symmetry; apply HE', H; lia.
      * apply HE', H; lia.
    + intros [-> H]; split; auto; intros i j Hij; apply HE', H; lia.
Qed.
Print Assumptions C44_image.

Theorem C44_image_not_planar :
  forall (A : Type) (z : A) differ im, length (dims im) <> 2 -> is_symmetry_image z differ im = Throw RuntimeError.
Proof.
  intros A z differ im N; unfold is_symmetry_image, get_dimensionality; apply Nat.eqb_neq in N; rewrite N; reflexivity.
Qed.
Print Assumptions C44_image_not_planar.

Example C44_case :
  is_symmetry (fun a b => negb (Z.eqb a b)) (mkMatrix 3 3 [1; 2; 3; 2; 5; 6; 3; 6; 9]%Z) = Ok true /\
  is_symmetry (fun a b => negb (Z.eqb a b)) (mkMatrix 3 3 [1; 2; 3; 2; 5; 6; 3; 7; 9]%Z) = Ok false /\
  is_symmetry (fun a b => negb (Z.eqb a b)) (mkMatrix 1 2 [1; 1]%Z) = Ok false.
Proof. repeat split. Qed.

(** ** C45 *)
(** [A] is the list of the [n] rows of length [n]; threshold positive (1e-12 by default).
    The result satisfies every equation, or it is the zero vector and the matrix is almost singular: some vector with
    a component equal to one is mapped to a vector all of whose components are below the threshold. *)
Theorem C45_solution :
  forall (K : ofield) (thr : K) n (A : list (list K)) (b : list K),
  length A = n -> Forall (fun row => length row = n) A -> length b = n -> fltb f0 thr = true ->
  let entry i j := nth j (nth i A []) f0 in
  let image v i := bsum f0 fadd (fun j => fmul (entry i j) (v j)) (seq 0 n) in
  exists x, solve_linear_system K thr n A b = Ok x /\ length x = n /\
    ((forall i, i < n -> image (fun j => nth j x f0) i = nth i b f0) \/
     (x = repeat f0 n /\ exists v, (exists j, j < n /\ v j = f1) /\ forall i, i < n -> fltb (fabs (image v i)) thr = true)).
Proof.
  intros K thr n A b LA HA LB Ht ent im.
  apply (solve_spec K thr n A b (fun i j => nth j (nth i A []) f0) (fun i => nth i b f0)); auto.
  split; [exact LA|]; split; cbn [fst snd].
  - intros k Hk; exists (nth k A []); split; [apply nth_error_nth'; lia|].
    rewrite Forall_forall in HA; assert (L : length (nth k A []) = n) by (apply HA, nth_In; lia).
    split; auto; intros j Hj; apply nth_error_nth'; lia.
  - split; auto; intros j Hj; apply nth_error_nth'; lia.
Qed.
Print Assumptions C45_solution.

(** a system without solution is not reported: the zero vector is returned like a solution *)
Theorem C45_singular_refuted :
  exists x, solve_linear_system Qcfield (qc 1 1000000000000) 1 [[qc 0 1]] [qc 1 1] = Ok x /\
    fmul (qc 0 1) (nth 0 x f0) <> qc 1 1.
Proof.
  eexists; split; [vm_compute; reflexivity|].
  intros E; apply (f_equal (fun q : Qc => Qeq_bool (this q) 0)) in E; vm_compute in E; discriminate.
Qed.
Print Assumptions C45_singular_refuted.

(** so is a regular system with small coefficients *)
Theorem C45_small_refuted :
  bind (solve_linear_system Qcfield (qc 1 1000000000000) 1 [[qc 1 10000000000000]] [qc 1 10000000000000])
    (fun x => Ok (map this x)) = Ok [0%Q].
Proof. vm_compute; reflexivity. Qed.
Print Assumptions C45_small_refuted.

Example C45_case :
  bind (solve_linear_system Qcfield (qc 1 1000000000000) 3
    [[qc 0 1; qc 2 1; qc 1 1]; [qc 1 1; qc 1 1; qc 0 1]; [qc 4 1; qc 0 1; qc (-1) 1]] [qc 7 1; qc 3 1; qc 1 1])
    (fun x => Ok (map this x)) = Ok [1; 2; 3]%Q.
Proof. vm_compute; reflexivity. Qed.
