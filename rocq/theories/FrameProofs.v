(** FrameProofs.v - lemmas about FrameModel.v *)
From Coq Require Import ZifyBool ZifyNat.
From Verif Require Import Base ImageModel ImageFacts IndexModel ImageProofs GeomModel GeomProofs PixelModel PixelProofs ReduceModel ReduceProofs CubeModel FrameModel.
Open Scope nat_scope.
Ltac Zify.zify_post_hook ::= Z.div_mod_to_equations.

(** ** predicates *)
Lemma list_all_spec {A} p (l : list A) : list_all_of p l = true <-> Forall (fun a => p a = true) l.
Proof.
  induction l as [|a l IH]; cbn; [split; auto|]; destruct (p a) eqn:E.
  - rewrite IH; split; [constructor; auto | intros H; inversion H; auto].
  - split; [discriminate | intros H; inversion H; congruence].
Qed.
Lemma list_any_spec {A} p (l : list A) : list_any_of p l = true <-> Exists (fun a => p a = true) l.
Proof.
  induction l as [|a l IH]; cbn; [split; [discriminate | intros H; inversion H]|]; destruct (p a) eqn:E.
  - split; auto.
  - rewrite IH; split; [auto | intros H; inversion H; [congruence | auto]].
Qed.
Lemma list_none_spec {A} p (l : list A) : list_none_of p l = true <-> Forall (fun a => p a = false) l.
Proof.
  induction l as [|a l IH]; cbn; [split; auto|]; destruct (p a) eqn:E.
  - split; [discriminate | intros H; inversion H; congruence].
  - rewrite IH; split; [constructor; auto | intros H; inversion H; auto].
Qed.

(** the pixels of a picture are its values at the positions in range *)
Lemma ReprN_Forall {A} (im : image A) ds f (P : A -> Prop) : ReprN im ds f -> (Forall P (pix im) <-> forall idx, in_range ds idx -> P (f idx)).
Proof.
  intros (D & L & H); rewrite Forall_forall; split.
  - intros F idx Hi; apply F; eapply nth_error_In; eauto.
  - intros F a Ha; apply In_nth_error in Ha as (k & Hk).
    assert (Kl : k < prodn ds) by (rewrite <- L; apply nth_error_Some; congruence).
    destruct (unoff_spec ds k Kl) as (R & OU); rewrite <- OU, (H _ R) in Hk; injection Hk as <-; auto.
Qed.
Lemma ReprN_Exists {A} (im : image A) ds f (P : A -> Prop) : ReprN im ds f -> (Exists P (pix im) <-> exists idx, in_range ds idx /\ P (f idx)).
Proof.
  intros (D & L & H); rewrite Exists_exists; split.
  - intros (a & Ha & Pa); apply In_nth_error in Ha as (k & Hk).
    assert (Kl : k < prodn ds) by (rewrite <- L; apply nth_error_Some; congruence).
    destruct (unoff_spec ds k Kl) as (R & OU); exists (unoff ds k); split; auto.
    rewrite <- OU, (H _ R) in Hk; injection Hk as <-; auto.
  - intros (idx & Hi & Pa); exists (f idx); split; auto; eapply nth_error_In; eauto.
Qed.

(** ** generate *)
Lemma produce_length {S A} (gen : S -> A * S) n : forall s, length (produce gen n s) = n.
Proof. induction n as [|n IH]; intros s; cbn; auto; destruct (gen s); cbn; auto. Qed.
(** the k-th call *)
Fixpoint nth_call {S A} (gen : S -> A * S) (k : nat) (s : S) : A :=
  match k with O => fst (gen s) | Datatypes.S k => nth_call gen k (snd (gen s)) end.
Lemma produce_nth {S A} (gen : S -> A * S) n : forall s k, k < n -> nth_error (produce gen n s) k = Some (nth_call gen k s).
Proof.
  induction n as [|n IH]; intros s k Hk; [lia|]; cbn; destruct (gen s) as (a, s') eqn:E; destruct k as [|k]; cbn; rewrite ?E; auto.
  apply IH; lia.
Qed.
Lemma to_int32_mod z : exists k, to_int32 z = (z + k * 2 ^ 32)%Z.
Proof. unfold to_int32; exists (- ((z + 2 ^ 31) / 2 ^ 32))%Z; pose proof (Z.div_mod (z + 2 ^ 31) (2 ^ 32) ltac:(lia)); lia. Qed.
Lemma to_int32_range z : (- 2 ^ 31 <= to_int32 z < 2 ^ 31)%Z.
Proof. unfold to_int32; pose proof (Z.mod_pos_bound (z + 2 ^ 31) (2 ^ 32) ltac:(lia)); lia. Qed.
Lemma to_int32_small z : (- 2 ^ 31 <= z < 2 ^ 31)%Z -> to_int32 z = z.
Proof. intros H; unfold to_int32; rewrite Z.mod_small by lia; lia. Qed.
Lemma to_int32_congr a b : (exists k, a = b + k * 2 ^ 32)%Z -> to_int32 a = to_int32 b.
Proof.
  intros (k & ->); unfold to_int32; replace (b + k * 2 ^ 32 + 2 ^ 31)%Z with (b + 2 ^ 31 + k * 2 ^ 32)%Z by ring.
  rewrite Z_mod_plus_full; auto.
Qed.
Lemma w64_mod32 z : exists k, w64 z = (z + k * 2 ^ 32)%Z.
Proof.
  unfold w64; exists (- (z / two64) * 2 ^ 32)%Z; pose proof (Z.div_mod z two64 ltac:(unfold two64; lia)) as E; unfold two64 in *.
  replace (- (z / 2 ^ 64) * 2 ^ 32 * 2 ^ 32)%Z with (- (z / 2 ^ 64) * 2 ^ 64)%Z by ring; lia.
Qed.
Lemma int_fold l : forall c c', (exists k, c = c' + k * 2 ^ 32)%Z -> (- 2 ^ 31 <= c < 2 ^ 31)%Z ->
  fold_left (fun c n => to_int32 (w64 (w64 c * Z.of_nat n))) l c = to_int32 (c' * Z.of_nat (prodn l)).
Proof.
  induction l as [|n l IH]; intros c c' (k & E) B; cbn [fold_left].
  - rewrite <- (to_int32_small c) by exact B; apply to_int32_congr; exists k; cbn; lia.
  - rewrite (IH _ (c' * Z.of_nat n)%Z); [|rewrite E | apply to_int32_range].
    + f_equal; change (prodn (n :: l)) with (n * prodn l); lia.
    + destruct (to_int32_mod (w64 (w64 (c' + k * 2 ^ 32) * Z.of_nat n))) as (k1 & ->).
      destruct (w64_mod32 (w64 (c' + k * 2 ^ 32) * Z.of_nat n)%Z) as (k2 & ->).
      destruct (w64_mod32 (c' + k * 2 ^ 32)%Z) as (k3 & ->).
      exists ((k + k3) * Z.of_nat n + k2 + k1)%Z; ring.
Qed.
Lemma int_w64_mod z : exists k, to_int32 (w64 z) = (z + k * 2 ^ 32)%Z.
Proof. destruct (to_int32_mod (w64 z)) as (k1 & ->); destruct (w64_mod32 z) as (k2 & ->); exists (k1 + k2)%Z; ring. Qed.
Lemma int_mul_cases a b : int_mul a b = UB \/ (int_mul a b = Ok (a * b)%Z /\ (- 2 ^ 31 <= a * b < 2 ^ 31)%Z).
Proof. unfold int_mul; destruct (_ && _)%bool eqn:E; [right; split; auto; apply andb_true_iff in E; destruct E as [E1 E2]; apply Z.leb_le in E1; apply Z.ltb_lt in E2; auto | left; auto]. Qed.
(** the number of elements is right modulo 2^32, unless a product of ints overflows *)
Lemma reduce_int_cases sizes : forall c c', (exists k, c = c' + k * 2 ^ 32)%Z -> (- 2 ^ 31 <= c < 2 ^ 31)%Z ->
  (reduce_int sizes c = UB /\ 4 <= length sizes) \/ reduce_int sizes c = Ok (to_int32 (c' * Z.of_nat (prodn sizes))).
Proof.
  assert (G : forall n sizes, length sizes < n -> forall c c', (exists k, c = c' + k * 2 ^ 32)%Z -> (- 2 ^ 31 <= c < 2 ^ 31)%Z ->
    (reduce_int sizes c = UB /\ 4 <= length sizes) \/ reduce_int sizes c = Ok (to_int32 (c' * Z.of_nat (prodn sizes)))).
  { induction n as [|n IH]; intros l Hl c c' K B; [lia|].
    destruct l as [|x1 [|x2 [|x3 [|x4 rest]]]]; try (right; cbn [reduce_int]; f_equal; apply int_fold; auto; fail).
    cbn [reduce_int length]; destruct (int_mul_cases (to_int32 (w64 (Z.of_nat x1 * Z.of_nat x2))) (to_int32 (w64 (Z.of_nat x3 * Z.of_nat x4)))) as [-> | [-> _]]; cbn [bind]; [left; split; [reflexivity | lia]|].
    destruct (int_mul_cases c (to_int32 (w64 (Z.of_nat x1 * Z.of_nat x2)) * to_int32 (w64 (Z.of_nat x3 * Z.of_nat x4)))) as [-> | [-> B']]; cbn [bind]; [left; split; [reflexivity | lia]|].
    edestruct (IH rest) as [[E _] | E]; [cbn in Hl; lia | | exact B' | |].
    - instantiate (1 := (c' * (Z.of_nat x1 * Z.of_nat x2 * (Z.of_nat x3 * Z.of_nat x4)))%Z); destruct K as (k & ->); destruct (int_w64_mod (Z.of_nat x1 * Z.of_nat x2)) as (k1 & ->); destruct (int_w64_mod (Z.of_nat x3 * Z.of_nat x4)) as (k2 & ->).
      set (u := (Z.of_nat x1 * Z.of_nat x2)%Z); set (v := (Z.of_nat x3 * Z.of_nat x4)%Z).
      exists (k * (u + k1 * 2 ^ 32) * (v + k2 * 2 ^ 32) + c' * (u * k2 + k1 * v + k1 * k2 * 2 ^ 32))%Z; ring.
    - left; split; [exact E | lia].
    - right; rewrite E; f_equal; f_equal; change (prodn (x1 :: x2 :: x3 :: x4 :: rest)) with (x1 * (x2 * (x3 * (x4 * prodn rest)))); lia. }
  intros c c'; apply (G (Datatypes.S (length sizes))); lia.
Qed.
Lemma wn_of_nat n : fits n -> wn (Z.of_nat n) = n.
Proof. intros H; unfold wn, w64, fits in *; rewrite Z.mod_small by lia; apply Nat2Z.id. Qed.
(** no overflow for extents that are not too large *)
Lemma reduce_int_ok sizes : forall c, (0 < c)%Z -> 0 < prodn sizes -> (c * Z.of_nat (prodn sizes) < 2 ^ 31)%Z -> reduce_int sizes c = Ok (c * Z.of_nat (prodn sizes))%Z.
Proof.
  assert (G : forall n sizes, length sizes < n -> forall c, (0 < c)%Z -> 0 < prodn sizes -> (c * Z.of_nat (prodn sizes) < 2 ^ 31)%Z -> reduce_int sizes c = Ok (c * Z.of_nat (prodn sizes))%Z).
  { induction n as [|n IH]; intros l Hl c C P B; [lia|].
    destruct l as [|x1 [|x2 [|x3 [|x4 rest]]]];
      try (cbn [reduce_int]; f_equal; rewrite (int_fold _ _ c) by (try (exists 0%Z; ring); nia); apply to_int32_small; nia).
    change (prodn (x1 :: x2 :: x3 :: x4 :: rest)) with (x1 * (x2 * (x3 * (x4 * prodn rest)))) in *.
    assert (P1 : 0 < x1 * x2) by nia; assert (P2 : 0 < x3 * x4) by nia; assert (P3 : 0 < prodn rest) by nia.
    replace (x1 * (x2 * (x3 * (x4 * prodn rest)))) with (x1 * x2 * (x3 * x4) * prodn rest) in * by ring.
    cbn [reduce_int]; rewrite <- !Nat2Z.inj_mul; revert P1 P2 P B; generalize (x1 * x2) (x3 * x4); intros u v P1 P2 P B.
    assert (Bv : (Z.of_nat (u * v) < 2 ^ 31)%Z) by nia; assert (Bc : (c * Z.of_nat (u * v) < 2 ^ 31)%Z) by nia; assert (Bu : (Z.of_nat u < 2 ^ 31)%Z) by nia; assert (Bw : (Z.of_nat v < 2 ^ 31)%Z) by nia.
    assert (W : forall x, (Z.of_nat x < 2 ^ 31)%Z -> to_int32 (w64 (Z.of_nat x)) = Z.of_nat x) by (intros x Hx; unfold w64; rewrite Z.mod_small by (unfold two64; lia); apply to_int32_small; lia).
    rewrite !W by assumption; unfold int_mul; rewrite <- Nat2Z.inj_mul; destruct (Z.leb_spec (- 2 ^ 31) (Z.of_nat (u * v))); [|lia]; destruct (Z.ltb_spec (Z.of_nat (u * v)) (2 ^ 31)); [|lia]; cbn [andb bind].
    destruct (Z.leb_spec (- 2 ^ 31) (c * Z.of_nat (u * v))); [|nia]; destruct (Z.ltb_spec (c * Z.of_nat (u * v)) (2 ^ 31)); [|lia]; cbn [andb bind].
    rewrite IH; [f_equal; rewrite (Nat2Z.inj_mul (u * v)); ring | cbn in Hl; lia | nia | exact P3 | rewrite (Nat2Z.inj_mul (u * v)) in B; lia]. }
  intros c; apply (G (Datatypes.S (length sizes))); lia.
Qed.

(** ** highlight_region *)
Lemma near_spec a b width : (Z.of_nat a < 2 ^ 31)%Z -> (Z.of_nat b < 2 ^ 31)%Z -> near a b width = Ok ((a <? b + width) && (b <? a + width)).
Proof.
  intros Ha Hb; unfold near; rewrite !to_int32_small by lia.
  rewrite (proj2 (Z.ltb_lt _ _)) by lia; f_equal; lia.
Qed.
Lemma in_span a b i : In i (span a b) <-> a <= i < b.
Proof. unfold span; rewrite in_seq; lia. Qed.

(** a loop that writes the wanted value wherever there is one *)
Lemma overlay_some {A I} (l : list I) (body : I -> image A -> res (image A)) (qx qy : I -> nat) w h (g : nat -> nat -> option A) :
  (forall i s, In i l -> dims s = [w; h] -> length (pix s) = w * h ->
    body i s = Ok (match g (qx i) (qy i) with Some v => im_upd s (qy i * w + qx i) v | None => s end)) ->
  (forall i, In i l -> g (qx i) (qy i) <> None -> qx i < w /\ qy i < h) ->
  (forall x y, x < w -> y < h -> g x y <> None -> exists i, In i l /\ qx i = x /\ qy i = y) ->
  forall im f, Repr im w h f ->
  exists im', for_list l body im = Ok im' /\ Repr im' w h (fun x y => match g x y with Some v => v | None => f x y end).
Proof.
  intros HB HP HC im f HI.
  assert (G : forall l, (forall i, In i l -> (forall s, dims s = [w; h] -> length (pix s) = w * h ->
      body i s = Ok (match g (qx i) (qy i) with Some v => im_upd s (qy i * w + qx i) v | None => s end)) /\ (g (qx i) (qy i) <> None -> qx i < w /\ qy i < h)) ->
    forall im f, Repr im w h f -> exists im', for_list l body im = Ok im' /\ Repr im' w h (fun x y =>
      match g x y with Some v => if existsb (fun i => (qx i =? x) && (qy i =? y)) l then v else f x y | None => f x y end)).
  { clear - I; induction l as [|i l IH]; intros HL im f HI.
    - exists im; split; auto; eapply Repr_ext; [exact HI|]; intros x y _ _; cbn; destruct (g x y); auto.
    - destruct (HL i (or_introl eq_refl)) as (B & P); cbn [for_list]; rewrite B by apply HI; cbn [bind].
      destruct (g (qx i) (qy i)) as [v|] eqn:E.
      + destruct P as (Px & Py); [discriminate|].
        destruct (IH ltac:(intros j Hj; apply HL; right; auto) _ _ (im_upd_Repr _ _ _ _ _ _ v HI Px Py)) as (im' & E' & H'); exists im'; split; auto.
        eapply Repr_ext; [exact H'|]; intros x y Hx Hy; cbv beta; cbn [existsb].
        destruct (Nat.eqb_spec (qx i) x) as [<-|Nx]; [destruct (Nat.eqb_spec (qy i) y) as [<-|Ny]|]; cbn [andb orb].
        * rewrite E; destruct (existsb _ l); auto; rewrite !Nat.eqb_refl; auto.
        * destruct (g (qx i) y); auto; try (destruct (existsb _ l); auto); rewrite (proj2 (Nat.eqb_neq y (qy i))), ?andb_false_r by lia; auto.
        * destruct (g x y); auto; try (destruct (existsb _ l); auto); rewrite (proj2 (Nat.eqb_neq x (qx i))) by lia; auto.
      + destruct (IH ltac:(intros j Hj; apply HL; right; auto) _ _ HI) as (im' & E' & H'); exists im'; split; auto.
        eapply Repr_ext; [exact H'|]; intros x y Hx Hy; cbv beta; cbn [existsb].
        destruct (Nat.eqb_spec (qx i) x) as [<-|Nx]; [destruct (Nat.eqb_spec (qy i) y) as [<-|Ny]|]; cbn [andb orb]; auto.
        rewrite E; auto. }
  destruct (G l ltac:(intros i Hi; split; [intros; apply HB; auto | apply HP; auto]) im f HI) as (im' & E & H).
  exists im'; split; auto; eapply Repr_ext; [exact H|]; intros x y Hx Hy; cbv beta; destruct (g x y) eqn:E1; auto.
  replace (existsb _ l) with true; auto; symmetry; apply existsb_exists.
  destruct (HC x y Hx Hy) as (i & Hi & <- & <-); [congruence|]; exists i; rewrite !Nat.eqb_refl; auto.
Qed.

(** a loop whose steps work or fail in one way, and one of them always fails *)
Lemma for_list_fails {I S} (Inv : S -> Prop) (l : list I) (body : I -> S -> res S) e i0 :
  (forall i s, In i l -> Inv s -> body i s = Throw e \/ exists s', body i s = Ok s' /\ Inv s') ->
  In i0 l -> (forall s, Inv s -> body i0 s = Throw e) -> forall s, Inv s -> for_list l body s = Throw e.
Proof.
  intros HB H0 F; induction l as [|i l IH]; [destruct H0|]; intros s Hs; cbn [for_list].
  destruct (HB i s (or_introl eq_refl) Hs) as [->|(s' & E & Hs')]; auto.
  destruct H0 as [->|H0]; [rewrite F; auto|]; rewrite E; cbn [bind]; apply IH; auto; intros; apply HB; auto; right; auto.
Qed.
Lemma for_list_id {I S} (l : list I) (body : I -> S -> res S) s : (forall i, In i l -> body i s = Ok s) -> for_list l body s = Ok s.
Proof.
  induction l as [|i l IH]; intros H; cbn; auto; rewrite H by (cbn; auto); cbn [bind]; apply IH; intros; apply H; cbn; auto.
Qed.

Lemma usub_wraps a b : a < b -> (Z.of_nat b < two64)%Z -> Z.of_nat (usub a b) = (two64 + Z.of_nat a - Z.of_nat b)%Z.
Proof.
  intros L B; unfold usub, wn, w64; rewrite Z2Nat.id by (apply Z.mod_pos_bound; unfold two64; lia).
  rewrite <- (Z_mod_plus_full _ 1), Z.mod_small; lia.
Qed.
Lemma span_wrapped a b e : a < b -> (Z.of_nat b < 2 ^ 31)%Z -> (Z.of_nat e < 2 ^ 32)%Z -> span (usub a b) e = [].
Proof.
  intros L B E; unfold span; pose proof (usub_wraps a b L ltac:(unfold two64; lia)) as U; unfold two64 in U.
  replace (e - usub a b) with 0 by lia; reflexivity.
Qed.
