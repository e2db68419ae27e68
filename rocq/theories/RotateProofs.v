(** RotateProofs.v - rotate reduces its angle modulo a quarter turn. *)
From Verif Require Import Base ImageModel ImageFacts GeomModel GeomProofs RotateModel.
From Coq Require Import QArith Qround ZifyBool.

Lemma qfmod1_lt q : (qfmod1 q < 1)%Q.
Proof.
  destruct q as [n p]; unfold qfmod1, Qlt, Qminus, Qplus, Qopp, inject_Z; simpl.
  pose proof (Z.quot_rem' n (Zpos p)) as E.
  assert (B : (Z.rem n (Zpos p) < Zpos p)%Z).
  { pose proof (Z.rem_bound_abs n (Zpos p) ltac:(lia)); lia. }
  nia.
Qed.

Lemma qfmod1_int k : (qfmod1 (inject_Z k) == 0)%Q.
Proof.
  unfold qfmod1, inject_Z; simpl; rewrite Z.quot_1_r.
  unfold Qeq, Qminus, Qplus, Qopp; simpl; lia.
Qed.

Section Rotate.
  Context {A : Type}.
  Variable d : A.
  Variable general : image A -> Q -> res (image A).

  (** the loop that should perform the quarter turns never runs *)
  Lemma rotate_no_turn im w h f fuel q :
    Repr im w h f -> (0 < fuel)%nat ->
    rotate d general fuel im q = Some (rotate_detail d general im (qfmod1 q)).
  Proof.
    intros R Hf; destruct fuel as [|fuel]; [lia|]; unfold rotate; rewrite (check2d_Repr _ _ _ _ R).
    cbn [rotate_loop]; replace (Qle_bool (qfmod1 q) 1) with true; [reflexivity|].
    symmetry; apply Qle_bool_iff, Qlt_le_weak, qfmod1_lt.
  Qed.

  Lemma rotate_multiple im w h f fuel k :
    Repr im w h f -> (0 < fuel)%nat -> rotate d general fuel im (inject_Z k) = Some (Ok im).
  Proof.
    intros R Hf; rewrite (rotate_no_turn im w h f) by auto; unfold rotate_detail.
    rewrite (check2d_Repr _ _ _ _ R); cbn [bind].
    replace (Qeq_bool (qfmod1 (inject_Z k)) 0) with true; [reflexivity|].
    symmetry; apply Qeq_bool_iff, qfmod1_int.
  Qed.

  Lemma rotate_detail_quarter im q : (q == 1)%Q -> length (dims im) = 2%nat ->
    rotate_detail d general im q = rotate_quarter d im.
  Proof.
    intros E D; unfold rotate_detail, check2d, get_dimensionality; rewrite D; cbn [Nat.eqb bind].
    replace (Qeq_bool q 0) with false; [replace (Qeq_bool q 1) with true; [reflexivity|] |].
    - symmetry; apply Qeq_bool_iff, E.
    - symmetry; apply not_true_is_false; intros C; apply Qeq_bool_iff in C; rewrite E in C; discriminate.
  Qed.
End Rotate.
