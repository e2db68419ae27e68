(** RSum.v - finite sums of real numbers. *)
From Coq Require Import Reals Lra ZifyBool ZifyNat.
From Verif Require Import Base BigSum.
Open Scope nat_scope.

(** ** sums of real numbers *)
Notation rsum := (bsum 0%R Rplus).
Lemma r0r (a : R) : (a + 0 = a)%R. Proof. lra. Qed.
Lemma rC (a b : R) : (a + b = b + a)%R. Proof. lra. Qed.
Lemma rA (a b c : R) : (a + (b + c) = a + b + c)%R. Proof. lra. Qed.

Lemma rsum_cons {I} (f : I -> R) i l : rsum f (i :: l) = (f i + rsum f l)%R.
Proof. apply bsum_cons; [apply r0r | apply rC | apply rA]. Qed.
Lemma rsum_nil {I} (f : I -> R) : rsum f [] = 0%R.
Proof. reflexivity. Qed.
Lemma rsum_add {I} (f g : I -> R) l : rsum (fun i => f i + g i)%R l = (rsum f l + rsum g l)%R.
Proof. apply bsum_add; [apply r0r | apply rC | apply rA]. Qed.
Lemma rsum_scale {I} k (f : I -> R) l : rsum (fun i => k * f i)%R l = (k * rsum f l)%R.
Proof. induction l as [|i l IH]; [unfold bsum; cbn; lra|]; rewrite !rsum_cons, IH; lra. Qed.
Lemma rsum_sub {I} (f g : I -> R) l : rsum (fun i => f i - g i)%R l = (rsum f l - rsum g l)%R.
Proof. induction l as [|i l IH]; [unfold bsum; cbn; lra|]; rewrite !rsum_cons, IH; lra. Qed.
Lemma rsum_ext {I} (f g : I -> R) l : (forall i, In i l -> f i = g i) -> rsum f l = rsum g l.
Proof. apply bsum_ext. Qed.
Lemma rsum_swap {I J} (f : I -> J -> R) l1 l2 : rsum (fun i => rsum (f i) l2) l1 = rsum (fun j => rsum (fun i => f i j) l1) l2.
Proof. apply bsum_swap; [apply r0r | apply rC | apply rA]. Qed.
Lemma rsum_zero {I} (f : I -> R) l : (forall i, In i l -> f i = 0%R) -> rsum f l = 0%R.
Proof. apply bsum_zero; apply r0r. Qed.
Lemma rsum_le {I} (f g : I -> R) l : (forall i, In i l -> f i <= g i)%R -> (rsum f l <= rsum g l)%R.
Proof.
  induction l as [|i l IH]; intros H; [unfold bsum; cbn; lra|]; rewrite !rsum_cons.
  pose proof (H i (or_introl eq_refl)); specialize (IH (fun j Hj => H j (or_intror Hj))); lra.
Qed.
Lemma rsum_nonneg {I} (f : I -> R) l : (forall i, In i l -> 0 <= f i)%R -> (0 <= rsum f l)%R.
Proof.
  intros H; apply Rle_trans with (rsum (fun _ : I => 0%R) l); [rewrite rsum_zero by auto; lra | apply rsum_le; auto].
Qed.
Lemma rsum_const {I} k (l : list I) : rsum (fun _ => k) l = (INR (length l) * k)%R.
Proof.
  induction l as [|i l IH]; [unfold bsum; cbn; lra|]; rewrite rsum_cons, IH; cbn [length]; rewrite S_INR; lra.
Qed.
Lemma rsum_single (f : nat -> R) n i0 : i0 < n -> (forall i, i < n -> i <> i0 -> f i = 0%R) -> rsum f (seq 0 n) = f i0.
Proof.
  intros H0 H; apply (bsum_single 0%R Rplus r0r rC rA); [apply seq_NoDup | apply in_seq; lia |].
  intros i Hi; apply in_seq in Hi; apply H; lia.
Qed.

(** two terms differ *)
Lemma rsum_change2 (f g : nat -> R) n p q : p < n -> q < n -> p <> q -> (forall a, a < n -> a <> p -> a <> q -> f a = g a) ->
  rsum f (seq 0 n) = (rsum g (seq 0 n) + (f p - g p) + (f q - g q))%R.
Proof.
  intros Hp Hq N H.
  set (u := fun a => if a =? p then (f p - g p)%R else 0%R); set (v := fun a => if a =? q then (f q - g q)%R else 0%R).
  rewrite (rsum_ext f (fun a => (g a + u a) + v a)%R).
  2:{ intros a Ha; apply in_seq in Ha; unfold u, v.
      destruct (Nat.eqb_spec a p) as [Ep|Np]; destruct (Nat.eqb_spec a q) as [Eq|Nq]; subst; [tauto | lra | lra | rewrite H by lia; lra]. }
  rewrite !rsum_add; rewrite (rsum_single u n p), (rsum_single v n q); auto.
  - unfold u, v; rewrite !Nat.eqb_refl; lra.
  - intros a _ Na; unfold v; apply Nat.eqb_neq in Na; rewrite Na; auto.
  - intros a _ Na; unfold u; apply Nat.eqb_neq in Na; rewrite Na; auto.
Qed.

Lemma rsum_mul {I J} (f : I -> R) (g : J -> R) l1 l2 :
  (rsum f l1 * rsum g l2 = rsum (fun i => rsum (fun j => f i * g j) l2) l1)%R.
Proof.
  rewrite Rmult_comm, <- rsum_scale; apply rsum_ext; intros i _; rewrite Rmult_comm, <- rsum_scale; auto.
Qed.

