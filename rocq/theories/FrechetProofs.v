(** FrechetProofs.v - differentiable functions of several real variables. *)
From Coq Require Import Reals Lra Lia.
From Verif Require Import Base BigSum RSum.
Open Scope nat_scope.

Definition vnorm (n : nat) (d : nat -> R) : R := rsum (fun i => Rabs (d i)) (seq 0 n).
Definition vdot (n : nat) (g d : nat -> R) : R := rsum (fun i => g i * d i)%R (seq 0 n).
(** [f] is differentiable at [p] with gradient [g] *)
Definition frechet (n : nat) (f : (nat -> R) -> R) (p g : nat -> R) : Prop :=
  forall eps, (0 < eps)%R -> exists del, (0 < del)%R /\ forall d, (vnorm n d < del)%R ->
    (Rabs (f (fun i => p i + d i) - f p - vdot n g d) <= eps * vnorm n d)%R.

Lemma vnorm_nonneg n d : (0 <= vnorm n d)%R.
Proof. apply rsum_nonneg; intros; apply Rabs_pos. Qed.
Lemma vnorm_ge n d k : k < n -> (Rabs (d k) <= vnorm n d)%R.
Proof.
  intros Hk; unfold vnorm; replace n with (k + (1 + (n - k - 1))) by lia; rewrite !seq_app, !(bsum_app 0%R Rplus) by (intros; ring).
  cbn [Nat.add seq]; rewrite rsum_cons, rsum_nil.
  assert (H1 := rsum_nonneg (fun i => Rabs (d i)) (seq 0 k) (fun i _ => Rabs_pos _)).
  assert (H2 := rsum_nonneg (fun i => Rabs (d i)) (seq (k + 1) (n - k - 1)) (fun i _ => Rabs_pos _)).
  replace (S k) with (k + 1) by lia. lra.
Qed.
Lemma rsum_abs_le {I} (f : I -> R) l : (Rabs (rsum f l) <= rsum (fun i => Rabs (f i)) l)%R.
Proof.
  induction l as [|a l IH]; [rewrite !rsum_nil, Rabs_R0; lra|]; rewrite !rsum_cons.
  eapply Rle_trans; [apply Rabs_triang|]; lra.
Qed.
Lemma vdot_le n g d : (Rabs (vdot n g d) <= vnorm n g * vnorm n d)%R.
Proof.
  unfold vdot; eapply Rle_trans; [apply rsum_abs_le|].
  eapply Rle_trans; [apply (rsum_le _ (fun i => Rabs (g i) * vnorm n d)%R)|].
  - intros i Hi; apply in_seq in Hi; rewrite Rabs_mult; apply Rmult_le_compat_l; [apply Rabs_pos | apply vnorm_ge; lia].
  - rewrite (rsum_ext _ (fun i => vnorm n d * Rabs (g i))%R) by (intros; ring); rewrite rsum_scale; unfold vnorm at 2; lra.
Qed.

Lemma fr_lip n f p g : frechet n f p g ->
  exists C del, (0 < C)%R /\ (0 < del)%R /\ forall d, (vnorm n d < del)%R -> (Rabs (f (fun i => p i + d i) - f p) <= C * vnorm n d)%R.
Proof.
  intros H; destruct (H 1%R ltac:(lra)) as (del & Pd & Hd); pose proof (vnorm_nonneg n g) as Ng.
  exists (1 + vnorm n g)%R, del; split; [lra|]; split; auto.
  intros d Sd; specialize (Hd d Sd); pose proof (vdot_le n g d).
  replace (f (fun i => p i + d i) - f p)%R with ((f (fun i => p i + d i) - f p - vdot n g d) + vdot n g d)%R by ring.
  eapply Rle_trans; [apply Rabs_triang|]; lra.
Qed.

Lemma fr_grad n f p g g' : frechet n f p g -> (forall i, i < n -> g i = g' i) -> frechet n f p g'.
Proof.
  intros H E eps Pe; destruct (H eps Pe) as (del & Pd & Hd); exists del; split; auto; intros d Sd.
  replace (vdot n g' d) with (vdot n g d); auto.
  apply rsum_ext; intros i Hi; apply in_seq in Hi; rewrite E by lia; auto.
Qed.
Lemma fr_ext n f f' p g : frechet n f p g -> (forall v, f v = f' v) -> frechet n f' p g.
Proof.
  intros H E eps Pe; destruct (H eps Pe) as (del & Pd & Hd); exists del; split; auto; intros d Sd; rewrite <- !E; auto.
Qed.

Lemma fr_const n c p : frechet n (fun _ => c) p (fun _ => 0%R).
Proof.
  intros eps Pe; exists 1%R; split; [lra|]; intros d _; unfold vdot.
  rewrite rsum_zero by (intros; ring); replace (c - c - 0)%R with 0%R by ring; rewrite Rabs_R0.
  apply Rmult_le_pos; [lra | apply vnorm_nonneg].
Qed.
Lemma fr_proj n k p : k < n -> frechet n (fun v => v k) p (fun i => if i =? k then 1%R else 0%R).
Proof.
  intros Hk eps Pe; exists 1%R; split; [lra|]; intros d _; unfold vdot.
  rewrite (rsum_single _ n k) by (auto; intros i _ N; rewrite (proj2 (Nat.eqb_neq i k)) by auto; ring).
  rewrite Nat.eqb_refl; replace (p k + d k - p k - 1 * d k)%R with 0%R by ring; rewrite Rabs_R0.
  apply Rmult_le_pos; [lra | apply vnorm_nonneg].
Qed.
Lemma fr_plus n f g p a b : frechet n f p a -> frechet n g p b -> frechet n (fun v => f v + g v)%R p (fun i => a i + b i)%R.
Proof.
  intros Hf Hg eps Pe; destruct (Hf (eps / 2)%R ltac:(lra)) as (d1 & P1 & H1), (Hg (eps / 2)%R ltac:(lra)) as (d2 & P2 & H2).
  exists (Rmin d1 d2); split; [apply Rmin_glb_lt; auto|]; intros d Sd.
  assert (S1 := Rlt_le_trans _ _ _ Sd (Rmin_l _ _)); assert (S2 := Rlt_le_trans _ _ _ Sd (Rmin_r _ _)).
  specialize (H1 d S1); specialize (H2 d S2).
  replace (vdot n (fun i => a i + b i)%R d) with (vdot n a d + vdot n b d)%R
    by (unfold vdot; rewrite <- rsum_add; apply rsum_ext; intros; ring).
  eapply Rle_trans; [|eapply Rle_trans; [apply Rplus_le_compat; [exact H1 | exact H2]|]]; [|lra].
  eapply Rle_trans; [|apply Rabs_triang]; right; f_equal; ring.
Qed.

(** composition with a differentiable function of one variable *)
Lemma fr_comp n f p g (phi : R -> R) l : frechet n f p g -> derivable_pt_lim phi (f p) l ->
  frechet n (fun v => phi (f v)) p (fun i => l * g i)%R.
Proof.
  intros Hf Hphi eps Pe; destruct (fr_lip _ _ _ _ Hf) as (C & d1 & PC & P1 & L1).
  assert (Pl := Rabs_pos l).
  assert (P2 : (0 < eps / (2 * C))%R) by (apply Rdiv_lt_0_compat; lra).
  destruct (Hphi _ P2) as (d2 & Hd2).
  assert (P3 : (0 < eps / (2 * (Rabs l + 1)))%R) by (apply Rdiv_lt_0_compat; lra).
  destruct (Hf _ P3) as (d3 & Pd3 & H3).
  assert (P4 : (0 < d2 / C)%R) by (apply Rdiv_lt_0_compat; [apply cond_pos | auto]).
  exists (Rmin d1 (Rmin (d2 / C) d3)); split; [repeat apply Rmin_glb_lt; auto|]; intros d Sd.
  assert (S1 := Rlt_le_trans _ _ _ Sd (Rmin_l _ _)).
  assert (S2 := Rlt_le_trans _ _ _ Sd (Rle_trans _ _ _ (Rmin_r _ _) (Rmin_l _ _))).
  assert (S3 := Rlt_le_trans _ _ _ Sd (Rle_trans _ _ _ (Rmin_r _ _) (Rmin_r _ _))).
  specialize (L1 d S1); specialize (H3 d S3); set (D := (f (fun i => p i + d i) - f p)%R) in *.
  assert (Nd := vnorm_nonneg n d).
  assert (SD : (Rabs D < d2)%R).
  { eapply Rle_lt_trans; [exact L1|]; apply (Rmult_lt_compat_l C) in S2; auto.
    replace (C * (d2 / C))%R with (d2 : R) in S2 by (field; lra); auto. }
  assert (HP : (Rabs (phi (f p + D) - phi (f p) - l * D) <= eps / (2 * C) * Rabs D)%R).
  { destruct (Req_dec D 0) as [->|N]; [rewrite Rplus_0_r, Rabs_R0; replace (phi (f p) - phi (f p) - l * 0)%R with 0%R by ring; rewrite Rabs_R0; lra|].
    specialize (Hd2 D N SD).
    replace (phi (f p + D) - phi (f p) - l * D)%R with (((phi (f p + D) - phi (f p)) / D - l) * D)%R by (field; auto).
    rewrite Rabs_mult; apply Rmult_le_compat_r; [apply Rabs_pos | lra]. }
  replace (f (fun i => p i + d i))%R with (f p + D)%R by (unfold D; ring).
  replace (vdot n (fun i => l * g i)%R d) with (l * vdot n g d)%R
    by (unfold vdot; rewrite <- rsum_scale; apply rsum_ext; intros; ring).
  replace (phi (f p + D) - phi (f p) - l * vdot n g d)%R with
    ((phi (f p + D) - phi (f p) - l * D) + l * (D - vdot n g d))%R by ring.
  eapply Rle_trans; [apply Rabs_triang|]; rewrite Rabs_mult.
  assert (A1 : (eps / (2 * C) * Rabs D <= eps / 2 * vnorm n d)%R).
  { apply (Rmult_le_compat_l (eps / (2 * C))) in L1; [|lra].
    replace (eps / (2 * C) * (C * vnorm n d))%R with (eps / 2 * vnorm n d)%R in L1 by (field; lra); auto. }
  assert (A2 : (Rabs l * Rabs (D - vdot n g d) <= eps / 2 * vnorm n d)%R).
  { apply Rle_trans with ((Rabs l + 1) * Rabs (D - vdot n g d))%R; [pose proof (Rabs_pos (D - vdot n g d)); lra|].
    apply (Rmult_le_compat_l (Rabs l + 1)) in H3; [|lra].
    replace ((Rabs l + 1) * (eps / (2 * (Rabs l + 1)) * vnorm n d))%R with (eps / 2 * vnorm n d)%R in H3 by (field; lra); auto. }
  lra.
Qed.

Lemma dl_linear a b x : derivable_pt_lim (fun t => a * t + b)%R x a.
Proof.
  intros eps Pe; exists (mkposreal 1 Rlt_0_1); intros h Nh _.
  replace ((a * (x + h) + b - (a * x + b)) / h - a)%R with 0%R by (field; auto); rewrite Rabs_R0; auto.
Qed.
Lemma fr_scal n f p g c : frechet n f p g -> frechet n (fun v => c * f v)%R p (fun i => c * g i)%R.
Proof.
  intros H; eapply fr_ext; [apply (fr_comp n f p g (fun t => c * t + 0)%R c H), dl_linear|]; intros v; cbv beta; ring.
Qed.
Lemma fr_minus n f g p a b : frechet n f p a -> frechet n g p b -> frechet n (fun v => f v - g v)%R p (fun i => a i - b i)%R.
Proof.
  intros Hf Hg; eapply fr_ext; [eapply fr_grad; [apply fr_plus; [exact Hf | apply fr_scal with (c := (-1)%R), Hg]|]|];
    intros; cbv beta; ring.
Qed.
Lemma dl_square x : derivable_pt_lim (fun t => t * t)%R x (2 * x)%R.
Proof.
  replace (2 * x)%R with (1 * x + x * 1)%R by ring.
  apply (derivable_pt_lim_mult (fun t => t) (fun t => t)); apply derivable_pt_lim_id.
Qed.
Lemma fr_mult n f g p a b : frechet n f p a -> frechet n g p b ->
  frechet n (fun v => f v * g v)%R p (fun i => a i * g p + f p * b i)%R.
Proof.
  intros Hf Hg.
  assert (S : frechet n (fun v => (f v + g v) * (f v + g v))%R p (fun i => 2 * (f p + g p) * (a i + b i))%R)
    by (apply (fr_comp n (fun v => f v + g v)%R p (fun i => a i + b i)%R (fun t => t * t)%R), dl_square; apply fr_plus; auto).
  assert (D : frechet n (fun v => (f v - g v) * (f v - g v))%R p (fun i => 2 * (f p - g p) * (a i - b i))%R)
    by (apply (fr_comp n (fun v => f v - g v)%R p (fun i => a i - b i)%R (fun t => t * t)%R), dl_square; apply fr_minus; auto).
  eapply fr_ext; [eapply fr_grad; [apply fr_scal with (c := (1 / 4)%R), fr_minus; [exact S | exact D]|]|];
    intros; cbv beta; field.
Qed.
Lemma dl_inv x : x <> 0%R -> derivable_pt_lim (fun t => / t)%R x (- / (x * x))%R.
Proof.
  intros N; replace (- / (x * x))%R with ((0 * x - 1 * 1) / Rsqr x)%R by (unfold Rsqr; field; auto).
  assert (H : derivable_pt_lim (fct_cte 1 / id)%F x ((0 * x - 1 * 1) / Rsqr x)%R).
  { apply (derivable_pt_lim_div (fct_cte 1) id); [apply derivable_pt_lim_const | apply derivable_pt_lim_id | auto]. }
  intros eps Pe; destruct (H eps Pe) as (d & Hd); exists d; intros h Nh Sh; specialize (Hd h Nh Sh).
  unfold div_fct, fct_cte, id in Hd; unfold Rdiv at 2 3 in Hd; rewrite !Rmult_1_l in Hd; rewrite !Rmult_1_l; auto.
Qed.
Lemma fr_inv n f p g : frechet n f p g -> f p <> 0%R -> frechet n (fun v => / f v)%R p (fun i => - / (f p * f p) * g i)%R.
Proof. intros H N; apply (fr_comp n f p g (fun t => / t)%R); auto; apply dl_inv; auto. Qed.
Lemma fr_exp n f p g : frechet n f p g -> frechet n (fun v => exp (f v)) p (fun i => exp (f p) * g i)%R.
Proof. intros H; apply (fr_comp n f p g exp); auto; apply derivable_pt_lim_exp. Qed.
Lemma fr_sum {I} n (F : I -> (nat -> R) -> R) p (G : I -> nat -> R) l : (forall i, In i l -> frechet n (F i) p (G i)) ->
  frechet n (fun v => rsum (fun i => F i v) l) p (fun k => rsum (fun i => G i k) l).
Proof.
  induction l as [|a l IH]; intros H.
  - eapply fr_ext; [eapply fr_grad; [apply (fr_const n 0%R)|]|]; intros; rewrite ?rsum_nil; auto.
  - eapply fr_ext; [eapply fr_grad; [exact (fr_plus n (F a) _ p (G a) _ (H a (or_introl eq_refl)) (IH (fun i Hi => H i (or_intror Hi))))|]|];
      intros; cbv beta; rewrite rsum_cons; auto.
Qed.

(** the partial derivatives *)
Lemma fr_partial n f p g k : frechet n f p g -> (forall v v', (forall i, i < n -> v i = v' i) -> f v = f v') -> k < n ->
  derivable_pt_lim (fun t => f (fun i => if i =? k then t else p i)) (p k) (g k).
Proof.
  intros H X Hk eps Pe; destruct (H (eps / 2)%R ltac:(lra)) as (del & Pd & Hd); exists (mkposreal del Pd); intros h Nh Sh; cbn [pos] in Sh.
  set (d := fun i => if i =? k then h else 0%R).
  assert (ND : vnorm n d = Rabs h).
  { unfold vnorm; rewrite (rsum_single _ n k) by (auto; intros i _ N; unfold d; rewrite (proj2 (Nat.eqb_neq i k)), Rabs_R0 by auto; auto).
    unfold d; rewrite Nat.eqb_refl; auto. }
  assert (VD : vdot n g d = (g k * h)%R).
  { unfold vdot; rewrite (rsum_single _ n k) by (auto; intros i _ N; unfold d; rewrite (proj2 (Nat.eqb_neq i k)) by auto; ring).
    unfold d; rewrite Nat.eqb_refl; auto. }
  specialize (Hd d ltac:(lra)); rewrite ND, VD in Hd.
  rewrite (X (fun i => if i =? k then (p k + h)%R else p i) (fun i => p i + d i)%R)
    by (intros i _; unfold d; destruct (Nat.eqb_spec i k) as [->|]; ring).
  rewrite (X (fun i => if i =? k then p k else p i) p) by (intros i _; destruct (Nat.eqb_spec i k) as [->|]; auto).
  replace ((f (fun i => p i + d i) - f p) / h - g k)%R with ((f (fun i => p i + d i) - f p - g k * h) * / h)%R by (field; auto).
  rewrite Rabs_mult, Rabs_inv; assert (Ph := Rabs_pos_lt h Nh).
  apply (Rmult_le_compat_r (/ Rabs h)) in Hd; [|left; apply Rinv_0_lt_compat; auto].
  eapply Rle_lt_trans; [exact Hd|]; rewrite Rmult_assoc, Rinv_r by lra; lra.
Qed.
