(** BigSum.v - finite sums over lists, used by the specifications.

    [bsum f l] adds [f i] for the [i] of [l], from left to right, starting from [zero]. *)
From Verif Require Import Base.

Section BigSum.
  Context {A : Type} (zero : A) (add : A -> A -> A).

  Definition bsum {I} (f : I -> A) (l : list I) : A := fold_left (fun s i => add s (f i)) l zero.

  Lemma fold_add_ext {I} (f g : I -> A) l : forall s, (forall i, In i l -> f i = g i) ->
    fold_left (fun s i => add s (f i)) l s = fold_left (fun s i => add s (g i)) l s.
  Proof.
    induction l as [|i l IH]; intros s H; simpl; auto.
    rewrite H by (simpl; auto); apply IH; intros; apply H; simpl; auto.
  Qed.

  Lemma bsum_ext {I} (f g : I -> A) l : (forall i, In i l -> f i = g i) -> bsum f l = bsum g l.
  Proof. apply fold_add_ext. Qed.

  Lemma bsum_map {I J} (h : J -> I) (f : I -> A) l : bsum f (map h l) = bsum (fun j => f (h j)) l.
  Proof.
    unfold bsum; generalize zero; induction l as [|j l IH]; intros s; simpl; auto.
  Qed.

  Hypothesis zero_r : forall a, add a zero = a.

  (** terms that are zero may be left out *)
  Lemma fold_add_filter {I} (p : I -> bool) (f : I -> A) l : forall s,
    fold_left (fun s i => add s (if p i then f i else zero)) l s =
    fold_left (fun s i => add s (f i)) (filter p l) s.
  Proof.
    induction l as [|i l IH]; intros s; simpl; auto.
    destruct (p i); simpl; auto; rewrite zero_r; apply IH.
  Qed.

  Lemma bsum_filter {I} (p : I -> bool) (f : I -> A) l :
    bsum (fun i => if p i then f i else zero) l = bsum f (filter p l).
  Proof. apply fold_add_filter. Qed.

  Lemma bsum_zero {I} (f : I -> A) l : (forall i, In i l -> f i = zero) -> bsum f l = zero.
  Proof.
    unfold bsum; intros H; assert (G : forall s, fold_left (fun s i => add s (f i)) l s = s); [|apply G].
    induction l as [|i l IH]; intros s; simpl; auto.
    rewrite H, zero_r by (simpl; auto); apply IH; intros; apply H; simpl; auto.
  Qed.

  Hypothesis comm : forall a b, add a b = add b a.
  Hypothesis assoc : forall a b c, add a (add b c) = add (add a b) c.

  Lemma fold_add {I} (f : I -> A) l : forall s, fold_left (fun s i => add s (f i)) l s = add s (bsum f l).
  Proof.
    unfold bsum; induction l as [|i l IH]; intros s; simpl; auto.
    rewrite (IH (add s (f i))), (IH (add zero (f i))), (comm zero), zero_r, assoc; reflexivity.
  Qed.

  Lemma bsum_cons {I} (f : I -> A) i l : bsum f (i :: l) = add (f i) (bsum f l).
  Proof. unfold bsum at 1; simpl; rewrite fold_add, (comm zero), zero_r; reflexivity. Qed.

  Lemma bsum_app {I} (f : I -> A) l1 l2 : bsum f (l1 ++ l2) = add (bsum f l1) (bsum f l2).
  Proof. unfold bsum at 1; rewrite fold_left_app; apply fold_add. Qed.

  Lemma bsum_perm {I} (f : I -> A) l1 l2 : Permutation l1 l2 -> bsum f l1 = bsum f l2.
  Proof.
    intros P; induction P as [|i l1 l2 P IH|i j l|l1 l2 l3 P1 IH1 P2 IH2]; auto.
    - rewrite !bsum_cons, IH; reflexivity.
    - rewrite !bsum_cons, !assoc, (comm (f j)); reflexivity.
    - congruence.
  Qed.

  Lemma bsum_add {I} (f g : I -> A) l : bsum (fun i => add (f i) (g i)) l = add (bsum f l) (bsum g l).
  Proof.
    induction l as [|i l IH]; [unfold bsum; simpl; symmetry; apply zero_r|].
    rewrite !bsum_cons, IH, <- !assoc; f_equal; rewrite !assoc; f_equal; apply comm.
  Qed.

  Lemma bsum_pairs {I J} (f : I * J -> A) ys (xs : I -> list J) :
    bsum f (pairs ys xs) = bsum (fun y => bsum (fun x => f (y, x)) (xs y)) ys.
  Proof.
    induction ys as [|y ys IH]; auto.
    unfold pairs; simpl; fold (pairs ys xs); rewrite bsum_app, bsum_cons, bsum_map, IH; reflexivity.
  Qed.

  Lemma bsum_swap {I J} (f : I -> J -> A) l1 l2 :
    bsum (fun i => bsum (f i) l2) l1 = bsum (fun j => bsum (fun i => f i j) l1) l2.
  Proof.
    induction l1 as [|i l1 IH].
    - symmetry; apply bsum_zero; auto.
    - rewrite bsum_cons, IH, <- bsum_add; apply bsum_ext; intros j _; rewrite bsum_cons; reflexivity.
  Qed.

  (** a duplicate-free list in which only [i0] contributes *)
  Lemma bsum_single {I} (f : I -> A) l i0 :
    NoDup l -> In i0 l -> (forall i, In i l -> i <> i0 -> f i = zero) -> bsum f l = f i0.
  Proof.
    intros ND HI H; induction l as [|i l IH]; [contradiction|].
    inversion ND as [|? ? NI ND']; subst; rewrite bsum_cons.
    destruct HI as [->|HI].
    - rewrite bsum_zero, zero_r; auto; intros j Hj; apply H; [right; auto | intros ->; auto].
    - rewrite IH; auto; [|intros j Hj; apply H; right; auto].
      rewrite H, (comm zero), zero_r; simpl; auto; intros ->; auto.
  Qed.
End BigSum.

(** a product with a constant distributes over an integer sum *)
Lemma bsum_scale {I} (k : Z) (f : I -> Z) l : (bsum 0 Z.add (fun i => k * f i) l = k * bsum 0 Z.add f l)%Z.
Proof.
  induction l as [|i l IH]; [unfold bsum; simpl; lia|].
  rewrite !bsum_cons by (intros; lia); rewrite IH; lia.
Qed.
