(** JacobiProofs.v - lemmas about the Jacobi eigenvalue iteration (JacobiModel). *)
From Coq Require Import Reals Lra ZifyBool ZifyNat.
From Verif Require Import Base BigSum RSum OField LinModel LinProofs SolveProofs JacobiModel.
Open Scope nat_scope.

(** ** the angle *)
Lemma atan2_spec y x : (sin (atan2 y x) * x = cos (atan2 y x) * y)%R.
Proof.
  assert (G : forall t, (sin (atan t) = cos (atan t) * t)%R).
  { intros t; pose proof (tan_atan t) as T; unfold tan in T.
    assert (C : (0 < cos (atan t))%R) by (apply cos_gt_0; pose proof (atan_bound t); lra).
    rewrite <- T at 3; field; lra. }
  unfold atan2; destruct (rltb 0 x) eqn:E1.
  - apply rltb_spec in E1; rewrite G; field; lra.
  - apply rltb_false in E1; destruct (rltb x 0) eqn:E2.
    + apply rltb_spec in E2; destruct (rltb y 0).
      * unfold Rminus; rewrite sin_plus, cos_plus, cos_neg, sin_neg, cos_PI, sin_PI, G; field; lra.
      * rewrite neg_sin, neg_cos, G; field; lra.
    + apply rltb_false in E2; assert (x = 0%R) as -> by lra.
      destruct (rltb 0 y) eqn:E3; [rewrite sin_PI2, cos_PI2; lra|].
      destruct (rltb y 0) eqn:E4; [rewrite sin_neg, cos_neg, sin_PI2, cos_PI2; lra|].
      rewrite rltb_false in E3, E4; assert (y = 0%R) as -> by lra; lra.
Qed.

(** the rotation angle annihilates the element (p, q) *)
Lemma jacobi_angle app aqq apq : let t := (/ 2 * atan2 (2 * apq) (aqq - app))%R in
  (cos t * sin t * app + (cos t * cos t - sin t * sin t) * apq - sin t * cos t * aqq = 0)%R.
Proof.
  intros t; pose proof (atan2_spec (2 * apq) (aqq - app)) as H.
  replace (atan2 (2 * apq) (aqq - app)) with (2 * t)%R in H by (unfold t; lra).
  rewrite sin_2a, cos_2a in H; lra.
Qed.

(** ** one rotation *)
Definition rot_e (p q : nat) (c s : R) (e : nat -> nat -> R) (a b : nat) : R :=
  (if b =? p then c * e a p - s * e a q else if b =? q then s * e a p + c * e a q else e a b)%R.

Definition rot_d (p q : nat) (c s : R) (f : nat -> nat -> R) (a b : nat) : R :=
  (if a =? p then
     if b =? p then c * c * f p p + s * s * f q q - 2 * s * c * f p q
     else if b =? q then 0 else c * f b p - s * f b q
   else if a =? q then
     if b =? p then 0
     else if b =? q then s * s * f p p + c * c * f q q + 2 * s * c * f p q else s * f b p + c * f b q
   else if b =? p then c * f a p - s * f a q
   else if b =? q then s * f a p + c * f a q else f a b)%R.

Lemma rotate_e_spec n p q c s E e : MRepr E n n e -> p < n -> q < n -> p <> q ->
  exists E', jacobi_rotate_e n p q c s E = Ok E' /\ MRepr E' n n (rot_e p q c s e).
Proof.
  intros R Hp Hq N; unfold jacobi_rotate_e.
  match goal with |- exists E', for_range n ?body _ = _ /\ _ =>
    destruct (for_range_inv n (fun k M => MRepr M n n (fun a b => if a <? k then rot_e p q c s e a b else e a b)) body E) as (E' & HE & H) end.
  - exact R.
  - intros i M Hi HM; rewrite !(mat_at_ok _ _ _ _ _ _ HM) by lia; cbn [bind]; rewrite Nat.ltb_irrefl.
    match goal with |- context [mat_set M i p ?v] => destruct (mat_set_ok M n n _ i p v HM Hi Hp) as (M1 & -> & H1); cbn [bind] end.
    match goal with |- context [mat_set M1 i q ?v] => destruct (mat_set_ok M1 n n _ i q v H1 Hi Hq) as (M2 & -> & H2) end.
    exists M2; split; auto; eapply MRepr_ext; [exact H2|]; intros a b Ha Hb; unfold fset, rot_e.
    destruct (Nat.eqb_spec a i) as [->|Na]; cbn [andb].
    + destruct (Nat.ltb_spec i (S i)); [|lia]; rewrite Nat.ltb_irrefl.
      destruct (Nat.eqb_spec b q) as [Eq|Nq]; destruct (Nat.eqb_spec b p) as [Ep|Np]; subst; auto; try tauto.
    + destruct (Nat.ltb_spec a i), (Nat.ltb_spec a (S i)); auto; lia.
  - exists E'; split; auto; eapply MRepr_ext; [exact H|]; intros a b Ha Hb; cbv beta.
    destruct (Nat.ltb_spec a n); auto; lia.
Qed.

Lemma rotate_d_spec n p q c s D f : MRepr D n n f -> p < n -> q < n -> p <> q ->
  exists D', jacobi_rotate_d n p q (f p p) (f q q) (f p q) c s D = Ok D' /\ MRepr D' n n (rot_d p q c s f).
Proof.
  intros R Hp Hq N; unfold jacobi_rotate_d.
  match goal with |- context [mat_set D p p ?v] => destruct (mat_set_ok D n n f p p v R Hp Hp) as (D1 & -> & R1); cbn [bind] end.
  match goal with |- context [mat_set D1 q q ?v] => destruct (mat_set_ok D1 n n _ q q v R1 Hq Hq) as (D2 & -> & R2); cbn [bind] end.
  match goal with |- context [mat_set D2 q p ?v] => destruct (mat_set_ok D2 n n _ q p v R2 Hq Hp) as (D3 & -> & R3); cbn [bind] end.
  match goal with |- context [mat_set D3 p q ?v] => destruct (mat_set_ok D3 n n _ p q v R3 Hp Hq) as (D4 & -> & R4); cbn [bind] end.
  set (special := fun a => (a =? p) || (a =? q)).
  assert (SP : forall a, special a = true <-> a = p \/ a = q) by (intros a; unfold special; lia).
  set (g := fun k a b => if special a then (if special b then rot_d p q c s f a b else if b <? k then rot_d p q c s f a b else f a b)
                         else if special b then (if a <? k then rot_d p q c s f a b else f a b) else f a b).
  match goal with |- exists D', for_range n ?body _ = _ /\ _ =>
    destruct (for_range_inv n (fun k M => MRepr M n n (g k)) body D4) as (D' & HD & H) end.
  - eapply MRepr_ext; [exact R4|]; intros a b Ha Hb; unfold fset, g, special, rot_d.
    destruct (Nat.eqb_spec a p), (Nat.eqb_spec a q), (Nat.eqb_spec b p), (Nat.eqb_spec b q); subst; cbn [andb orb]; auto; try tauto; lia.
  - intros i M Hi HM; destruct (negb (i =? p) && negb (i =? q)) eqn:Ei.
    + assert (Np : i <> p /\ i <> q) by lia; destruct Np as [Np Nq].
      rewrite !(mat_at_ok _ _ _ _ _ _ HM) by lia; cbn [bind].
      assert (Gp : g i i p = f i p).
      { unfold g; replace (special i) with false by (unfold special; lia); replace (special p) with true by (unfold special; lia); rewrite Nat.ltb_irrefl; auto. }
      assert (Gq : g i i q = f i q).
      { unfold g; replace (special i) with false by (unfold special; lia); replace (special q) with true by (unfold special; lia); rewrite Nat.ltb_irrefl; auto. }
      rewrite Gp, Gq.
      match goal with |- context [mat_set M p i ?v] => destruct (mat_set_ok M n n _ p i v HM Hp Hi) as (M1 & -> & H1); cbn [bind] end.
      match goal with |- context [mat_set M1 i p ?v] => destruct (mat_set_ok M1 n n _ i p v H1 Hi Hp) as (M2 & -> & H2); cbn [bind] end.
      match goal with |- context [mat_set M2 q i ?v] => destruct (mat_set_ok M2 n n _ q i v H2 Hq Hi) as (M3 & -> & H3); cbn [bind] end.
      match goal with |- context [mat_set M3 i q ?v] => destruct (mat_set_ok M3 n n _ i q v H3 Hi Hq) as (M4 & -> & H4) end.
      exists M4; split; auto; eapply MRepr_ext; [exact H4|]; intros a b Ha Hb; unfold fset, g, special, rot_d.
      destruct (Nat.eqb_spec a p), (Nat.eqb_spec a q), (Nat.eqb_spec b p), (Nat.eqb_spec b q), (Nat.eqb_spec a i), (Nat.eqb_spec b i);
        subst; cbn [andb orb]; auto; try tauto; try lia;
        repeat match goal with |- context [?u <? ?v] => destruct (Nat.ltb_spec u v) end; auto; try lia.
    + exists M; split; auto; eapply MRepr_ext; [exact HM|]; intros a b Ha Hb; unfold g, special.
      destruct (Nat.eqb_spec a p), (Nat.eqb_spec a q), (Nat.eqb_spec b p), (Nat.eqb_spec b q); subst; cbn [andb orb]; auto;
        repeat match goal with |- context [?u <? ?v] => destruct (Nat.ltb_spec u v) end; auto; try lia;
        destruct (Nat.eqb_spec i p), (Nat.eqb_spec i q); cbn [andb negb] in Ei; try discriminate; lia.
  - exists D'; split; auto; eapply MRepr_ext; [exact H|]; intros a b Ha Hb; unfold g, special, rot_d.
    destruct (Nat.eqb_spec a p), (Nat.eqb_spec a q), (Nat.eqb_spec b p), (Nat.eqb_spec b q); cbn [orb]; auto;
      repeat match goal with |- context [?u <? ?v] => destruct (Nat.ltb_spec u v) end; auto; lia.
Qed.

(** ** the search for the largest element *)
Lemma jacobi_scan_spec n D f : MRepr D n n f ->
  exists m p q, jacobi_scan n D = Ok (m, (p, q)) /\ (0 <= m)%R /\ (forall i j, i < j < n -> (Rabs (f i j) <= m)%R) /\
    ((m = 0%R /\ p = 0 /\ q = 1) \/ (p < q < n /\ m = Rabs (f p q))).
Proof.
  intros HD; unfold jacobi_scan.
  set (P := fun (seen : nat -> nat -> Prop) (st : R * (nat * nat)) => (0 <= fst st)%R /\ (forall i j, seen i j -> (Rabs (f i j) <= fst st)%R) /\
    ((fst st = 0%R /\ fst (snd st) = 0 /\ snd (snd st) = 1) \/ (fst (snd st) < snd (snd st) < n /\ fst st = Rabs (f (fst (snd st)) (snd (snd st)))))).
  match goal with |- context [for_range n ?body ?s0] =>
    destruct (for_range_inv n (fun k st => P (fun i j => i < k /\ i < j < n) st) body s0) as ([m [p q]] & E & H1 & H2 & H3) end.
  - unfold P; cbn [fst snd]; split; [lra|]; split; [intros i j H; lia | left; auto].
  - intros i st Hi HP.
    destruct (for_seq_inv (i + 1) (n - (i + 1)) (fun k st => P (fun a j => (a < i /\ a < j < n) \/ (a = i /\ i < j < k)) st)
      (fun j st => let* v := mat_at D i j in Ok (if rltb (fst st) (Rabs v) then (Rabs v, (i, j)) else st)) st) as (st' & E & HP').
    + destruct HP as (P1 & P2 & P3); split; auto; split; auto; intros a j [H|H]; [apply P2; auto | lia].
    + intros j [m [p q]] Hj (P1 & P2 & P3); rewrite (mat_at_ok _ _ _ _ _ _ HD) by lia; cbn [bind fst snd] in *.
      eexists; split; [reflexivity|]; destruct (rltb m (Rabs (f i j))) eqn:Er; unfold P; cbn [fst snd].
      * apply rltb_spec in Er; split; [lra|]; split.
        -- intros a b [H|H]; [specialize (P2 a b (or_introl H)); lra|].
           destruct (Nat.eq_dec b j) as [->|Nb]; [destruct H as [-> _]; lra|].
           assert (Rabs (f a b) <= m)%R by (apply P2; right; lia); lra.
        -- right; split; auto; lia.
      * apply rltb_false in Er; split; auto; split; auto.
        intros a b [H|H]; [apply P2; auto|]; destruct (Nat.eq_dec b j) as [->|Nb]; [destruct H as [-> _]; auto | apply P2; right; lia].
    + exists st'; split; auto; destruct HP' as (P1 & P2 & P3); split; auto; split; auto.
      intros a b H; apply P2; destruct (Nat.eq_dec a i) as [->|Na]; [right; lia | left; lia].
  - exists m, p, q; cbn [fst snd] in *; split; auto; split; auto; split; auto; intros i j H; apply H2; lia.
Qed.

(** ** the invariant of the iteration *)
Definition bil (n : nat) (A : nat -> nat -> R) (u v : nat -> R) : R :=
  rsum (fun k => rsum (fun l => u k * A k l * v l)%R (seq 0 n)) (seq 0 n).
Definition rdot (n : nat) (u v : nat -> R) : R := rsum (fun k => u k * v k)%R (seq 0 n).
(** sum of the squares off the diagonal *)
Definition off2 (n : nat) (D : nat -> nat -> R) : R :=
  rsum (fun a => rsum (fun b => if a =? b then 0 else D a b * D a b)%R (seq 0 n)) (seq 0 n).

Lemma bil_comb_l n A c s u v w : bil n A (fun k => c * u k + s * v k)%R w = (c * bil n A u w + s * bil n A v w)%R.
Proof.
  unfold bil; rewrite <- !rsum_scale, <- rsum_add; apply rsum_ext; intros k _.
  rewrite <- !rsum_scale, <- rsum_add; apply rsum_ext; intros l _; lra.
Qed.
Lemma bil_comb_r n A c s u v w : bil n A w (fun k => c * u k + s * v k)%R = (c * bil n A w u + s * bil n A w v)%R.
Proof.
  unfold bil; rewrite <- !rsum_scale, <- rsum_add; apply rsum_ext; intros k _.
  rewrite <- !rsum_scale, <- rsum_add; apply rsum_ext; intros l _; lra.
Qed.
Lemma bil_ext n A u v u' v' : (forall k, k < n -> u k = u' k) -> (forall k, k < n -> v k = v' k) -> bil n A u v = bil n A u' v'.
Proof.
  intros H1 H2; apply rsum_ext; intros k Hk; apply in_seq in Hk; apply rsum_ext; intros l Hl; apply in_seq in Hl; rewrite H1, H2 by lia; auto.
Qed.
Lemma bil_sym n A u v : (forall i j, i < n -> j < n -> A i j = A j i) -> bil n A u v = bil n A v u.
Proof.
  intros H; unfold bil; rewrite rsum_swap; apply rsum_ext; intros k Hk; apply in_seq in Hk; apply rsum_ext; intros l Hl; apply in_seq in Hl.
  rewrite (H k l) by lia; lra.
Qed.
Lemma rdot_comb_l n c s u v w : rdot n (fun k => c * u k + s * v k)%R w = (c * rdot n u w + s * rdot n v w)%R.
Proof. unfold rdot; rewrite <- !rsum_scale, <- rsum_add; apply rsum_ext; intros k _; lra. Qed.
Lemma rdot_comb_r n c s u v w : rdot n w (fun k => c * u k + s * v k)%R = (c * rdot n w u + s * rdot n w v)%R.
Proof. unfold rdot; rewrite <- !rsum_scale, <- rsum_add; apply rsum_ext; intros k _; lra. Qed.
Lemma rdot_ext n u v u' v' : (forall k, k < n -> u k = u' k) -> (forall k, k < n -> v k = v' k) -> rdot n u v = rdot n u' v'.
Proof. intros H1 H2; apply rsum_ext; intros k Hk; apply in_seq in Hk; rewrite H1, H2 by lia; auto. Qed.

Section Iteration.
  Variables (n : nat) (A : nat -> nat -> R).
  Hypothesis A_sym : forall i j, i < n -> j < n -> A i j = A j i.

  Notation col e a := (fun k => e k a).
  Record jac_inv (D E : nat -> nat -> R) : Prop := {
    j_sym : forall a b, a < n -> b < n -> D a b = D b a;
    j_bil : forall a b, a < n -> b < n -> D a b = bil n A (col E a) (col E b);
    j_orth : forall a b, a < n -> b < n -> rdot n (col E a) (col E b) = if a =? b then 1%R else 0%R;
    j_comp : forall k l, k < n -> l < n -> rdot n (E k) (E l) = if k =? l then 1%R else 0%R
  }.

  Lemma jac_start : jac_inv A (fun a b => if a =? b then 1%R else 0%R).
  Proof.
    split; auto.
    - intros a b Ha Hb; unfold bil; rewrite (rsum_single _ n a Ha).
      + rewrite (rsum_single _ n b Hb); [rewrite !Nat.eqb_refl; lra|].
        intros l _ Nl; apply Nat.eqb_neq in Nl; rewrite Nl; lra.
      + intros k _ Nk; apply rsum_zero; intros l _; apply Nat.eqb_neq in Nk; rewrite Nk; lra.
    - intros a b Ha Hb; unfold rdot; rewrite (rsum_single _ n a Ha); [rewrite Nat.eqb_refl; destruct (a =? b); lra|].
      intros k _ Nk; apply Nat.eqb_neq in Nk; rewrite Nk; lra.
    - intros a b Ha Hb; unfold rdot; rewrite (rsum_single _ n a Ha); [rewrite Nat.eqb_refl, (Nat.eqb_sym b a); destruct (a =? b); lra|].
      intros k _ Nk; apply not_eq_sym, Nat.eqb_neq in Nk; rewrite Nk; lra.
  Qed.

  Lemma jac_step D E p q c s : p < n -> q < n -> p <> q -> (c * c + s * s = 1)%R ->
    (c * s * D p p + (c * c - s * s) * D p q - s * c * D q q = 0)%R ->
    jac_inv D E -> jac_inv (rot_d p q c s D) (rot_e p q c s E).
  Proof.
    intros Hp Hq N CS HA [Sy Bi Or Co].
    assert (Eqp : q =? p = false) by (apply Nat.eqb_neq; auto).
    assert (Cp : forall k, rot_e p q c s E k p = (c * E k p + - s * E k q)%R) by (intros; unfold rot_e; rewrite Nat.eqb_refl; lra).
    assert (Cq : forall k, rot_e p q c s E k q = (s * E k p + c * E k q)%R) by (intros; unfold rot_e; rewrite Eqp, Nat.eqb_refl; lra).
    assert (Cr : forall b, b <> p -> b <> q -> forall k, rot_e p q c s E k b = E k b).
    { intros b N1 N2 k; unfold rot_e; apply Nat.eqb_neq in N1, N2; rewrite N1, N2; auto. }
    assert (SyR : forall a b, a < n -> b < n -> rot_d p q c s D a b = rot_d p q c s D b a).
    { intros a b Ha Hb; unfold rot_d; destruct (Nat.eqb_spec a p), (Nat.eqb_spec a q), (Nat.eqb_spec b p), (Nat.eqb_spec b q); subst; auto; try tauto. }
    split; auto.
    - intros a b Ha Hb.
      destruct (Nat.eq_dec a p) as [->|Ap]; [|destruct (Nat.eq_dec a q) as [->|Aq]];
        (destruct (Nat.eq_dec b p) as [->|Bp]; [|destruct (Nat.eq_dec b q) as [->|Bq]]).
      all: unfold rot_d; repeat match goal with H : ?x <> ?y |- context [?x =? ?y] => rewrite (proj2 (Nat.eqb_neq x y) H) end; rewrite ?Nat.eqb_refl, ?Eqp.
      + rewrite (bil_ext n A _ _ _ _ (fun k _ => Cp k) (fun k _ => Cp k)), bil_comb_l, !bil_comb_r, <- !Bi, (Sy q p) by auto; lra.
      + rewrite (bil_ext n A _ _ _ _ (fun k _ => Cp k) (fun k _ => Cq k)), bil_comb_l, !bil_comb_r, <- !Bi, (Sy q p) by auto; lra.
      + rewrite (bil_ext n A _ _ _ _ (fun k _ => Cp k) (fun k _ => Cr b Bp Bq k)), bil_comb_l, <- !Bi by auto; rewrite (Sy p b), (Sy q b) by auto; lra.
      + rewrite (bil_ext n A _ _ _ _ (fun k _ => Cq k) (fun k _ => Cp k)), bil_comb_l, !bil_comb_r, <- !Bi, (Sy q p) by auto; lra.
      + rewrite (bil_ext n A _ _ _ _ (fun k _ => Cq k) (fun k _ => Cq k)), bil_comb_l, !bil_comb_r, <- !Bi, (Sy q p) by auto; lra.
      + rewrite (bil_ext n A _ _ _ _ (fun k _ => Cq k) (fun k _ => Cr b Bp Bq k)), bil_comb_l, <- !Bi by auto; rewrite (Sy p b), (Sy q b) by auto; lra.
      + rewrite (bil_ext n A _ _ _ _ (fun k _ => Cr a Ap Aq k) (fun k _ => Cp k)), bil_comb_r, <- !Bi by auto; lra.
      + rewrite (bil_ext n A _ _ _ _ (fun k _ => Cr a Ap Aq k) (fun k _ => Cq k)), bil_comb_r, <- !Bi by auto; lra.
      + rewrite (bil_ext n A _ _ _ _ (fun k _ => Cr a Ap Aq k) (fun k _ => Cr b Bp Bq k)), <- Bi by auto; auto.
    - intros a b Ha Hb.
      destruct (Nat.eq_dec a p) as [->|Ap]; [|destruct (Nat.eq_dec a q) as [->|Aq]];
        (destruct (Nat.eq_dec b p) as [->|Bp]; [|destruct (Nat.eq_dec b q) as [->|Bq]]).
      + rewrite (rdot_ext n _ _ _ _ (fun k _ => Cp k) (fun k _ => Cp k)), rdot_comb_l, !rdot_comb_r, !Or by auto.
        rewrite !Nat.eqb_refl, Eqp, (Nat.eqb_sym p q), Eqp; lra.
      + rewrite (rdot_ext n _ _ _ _ (fun k _ => Cp k) (fun k _ => Cq k)), rdot_comb_l, !rdot_comb_r, !Or by auto.
        rewrite !Nat.eqb_refl, Eqp, (Nat.eqb_sym p q), Eqp; lra.
      + rewrite (rdot_ext n _ _ _ _ (fun k _ => Cp k) (fun k _ => Cr b Bp Bq k)), rdot_comb_l, !Or by auto.
        destruct (Nat.eqb_spec p b), (Nat.eqb_spec q b); subst; try tauto; lra.
      + rewrite (rdot_ext n _ _ _ _ (fun k _ => Cq k) (fun k _ => Cp k)), rdot_comb_l, !rdot_comb_r, !Or by auto.
        rewrite !Nat.eqb_refl, Eqp, (Nat.eqb_sym p q), Eqp; lra.
      + rewrite (rdot_ext n _ _ _ _ (fun k _ => Cq k) (fun k _ => Cq k)), rdot_comb_l, !rdot_comb_r, !Or by auto.
        rewrite !Nat.eqb_refl, Eqp, (Nat.eqb_sym p q), Eqp; lra.
      + rewrite (rdot_ext n _ _ _ _ (fun k _ => Cq k) (fun k _ => Cr b Bp Bq k)), rdot_comb_l, !Or by auto.
        destruct (Nat.eqb_spec p b), (Nat.eqb_spec q b); subst; try tauto; lra.
      + rewrite (rdot_ext n _ _ _ _ (fun k _ => Cr a Ap Aq k) (fun k _ => Cp k)), rdot_comb_r, !Or by auto.
        destruct (Nat.eqb_spec a p), (Nat.eqb_spec a q); subst; try tauto; lra.
      + rewrite (rdot_ext n _ _ _ _ (fun k _ => Cr a Ap Aq k) (fun k _ => Cq k)), rdot_comb_r, !Or by auto.
        destruct (Nat.eqb_spec a p), (Nat.eqb_spec a q); subst; try tauto; lra.
      + rewrite (rdot_ext n _ _ _ _ (fun k _ => Cr a Ap Aq k) (fun k _ => Cr b Bp Bq k)), Or by auto; auto.
    - intros k l Hk Hl; rewrite <- Co by auto; unfold rdot.
      rewrite (rsum_change2 _ (fun a => E k a * E l a)%R n p q Hp Hq N).
      2:{ intros a _ N1 N2; rewrite !Cr by auto; auto. }
      rewrite !Cp, !Cq.
      assert (HH : ((c * E k p + - s * E k q) * (c * E l p + - s * E l q) - E k p * E l p + ((s * E k p + c * E k q) * (s * E l p + c * E l q) - E k q * E l q)
        = (c * c + s * s - 1) * (E k p * E l p + E k q * E l q))%R) by ring.
      rewrite CS in HH; lra.
  Qed.

End Iteration.

  Lemma off2_step n D p q c s : p < n -> q < n -> p <> q -> (c * c + s * s = 1)%R ->
    (forall a b, a < n -> b < n -> D a b = D b a) ->
    off2 n (rot_d p q c s D) = (off2 n D - 2 * (D p q * D p q))%R.
  Proof.
    intros Hp Hq N CS Sy.
    assert (Eqp : q =? p = false) by (apply Nat.eqb_neq; auto).
    assert (Epq : p =? q = false) by (apply Nat.eqb_neq; auto).
    unfold off2; set (D' := rot_d p q c s D).
    set (row := fun (M : nat -> nat -> R) a => rsum (fun b => if a =? b then 0 else M a b * M a b)%R (seq 0 n)).
    change (rsum (row D') (seq 0 n) = (rsum (row D) (seq 0 n) - 2 * (D p q * D p q))%R).
    rewrite (rsum_change2 (row D') (row D) n p q Hp Hq N).
    2:{ intros a Ha N1 N2; unfold row; rewrite (rsum_change2 _ (fun b => if a =? b then 0 else D a b * D a b)%R n p q Hp Hq N).
        - apply Nat.eqb_neq in N1, N2; unfold D', rot_d; rewrite N1, N2, !Nat.eqb_refl, Eqp.
          replace ((c * D a p - s * D a q) * (c * D a p - s * D a q) - D a p * D a p)%R
            with ((c * c + s * s - 1) * (D a p * D a p) + (s * s) * (D a q * D a q - D a p * D a p) - 2 * c * s * (D a p * D a q))%R by ring.
          replace ((s * D a p + c * D a q) * (s * D a p + c * D a q) - D a q * D a q)%R
            with ((c * c + s * s - 1) * (D a q * D a q) - (s * s) * (D a q * D a q - D a p * D a p) + 2 * c * s * (D a p * D a q))%R by ring.
          rewrite CS; ring.
        - intros b _ M1 M2; unfold D', rot_d; apply Nat.eqb_neq in N1, N2, M1, M2; rewrite N1, N2, M1, M2; auto. }
    assert (HR : (row D' p + row D' q = row D p + row D q - 2 * (D p q * D p q))%R); [|lra].
    unfold row; rewrite <- !rsum_add.
    rewrite (rsum_change2 _ (fun b => (if p =? b then 0 else D p b * D p b) + (if q =? b then 0 else D q b * D q b))%R n p q Hp Hq N).
    - rewrite !Nat.eqb_refl, Eqp, Epq; unfold D', rot_d; rewrite !Nat.eqb_refl, Eqp, (Sy q p) by auto; lra.
    - intros b Hb M1 M2; rewrite (Nat.eqb_sym p b), (Nat.eqb_sym q b); apply Nat.eqb_neq in M1, M2; rewrite M1, M2.
      unfold D', rot_d; rewrite !Nat.eqb_refl, Eqp, M1, M2, (Sy p b), (Sy q b) by auto.
      replace ((c * D b p - s * D b q) * (c * D b p - s * D b q) + (s * D b p + c * D b q) * (s * D b p + c * D b q))%R
        with ((c * c + s * s) * (D b p * D b p + D b q * D b q))%R by ring; rewrite CS; ring.
  Qed.

  Lemma off2_bound n D m : (forall a b, a < n -> b < n -> D a b = D b a) -> (0 <= m)%R -> (forall i j, i < j < n -> (Rabs (D i j) <= m)%R) ->
    (off2 n D <= INR n * (INR n - 1) * (m * m))%R.
  Proof.
    intros Sy M0 HM; unfold off2.
    apply Rle_trans with (rsum (fun a : nat => (INR n - 1) * (m * m))%R (seq 0 n)); [|rewrite rsum_const, seq_length; lra].
    apply rsum_le; intros a Ha; apply in_seq in Ha.
    apply Rle_trans with (rsum (fun b => if a =? b then 0 else m * m)%R (seq 0 n)).
    - apply rsum_le; intros b Hb; apply in_seq in Hb; destruct (Nat.eqb_spec a b) as [->|Nb]; [lra|].
      assert (H : (Rabs (D a b) <= m)%R).
      { destruct (Nat.lt_ge_cases a b); [apply HM; lia | rewrite Sy by lia; apply HM; lia]. }
      rewrite <- (Rabs_right (D a b * D a b)), Rabs_mult by (apply Rle_ge, Rle_0_sqr).
      apply Rmult_le_compat; auto; apply Rabs_pos.
    - rewrite (rsum_ext _ (fun b => (m * m) - (if a =? b then m * m else 0))%R) by (intros b _; destruct (a =? b); lra).
      rewrite rsum_sub, rsum_const, seq_length, (rsum_single (fun b => if a =? b then m * m else 0)%R n a) by
        (try lia; intros i _ Ni; apply not_eq_sym, Nat.eqb_neq in Ni; rewrite Ni; auto).
      rewrite Nat.eqb_refl; lra.
  Qed.

(** one pass of the loop at 157-209 *)
Definition rate (n : nat) : R := (1 - 2 / (INR n * (INR n - 1)))%R.

Lemma rate_bounds n : 2 <= n -> (0 <= rate n < 1)%R.
Proof.
  intros Hn; unfold rate; assert (H : (2 <= INR n)%R) by (change 2%R with (INR 2); apply le_INR; auto).
  assert (H2 : (2 <= INR n * (INR n - 1))%R) by nra.
  assert (0 < / (INR n * (INR n - 1)))%R by (apply Rinv_0_lt_compat; lra).
  assert (2 * / (INR n * (INR n - 1)) <= 1)%R.
  { apply Rmult_le_reg_r with (INR n * (INR n - 1))%R; [lra|]; rewrite Rmult_assoc, Rinv_l by lra; lra. }
  unfold Rdiv; lra.
Qed.

Lemma off2_nonneg n D : (0 <= off2 n D)%R.
Proof.
  unfold off2; apply rsum_nonneg; intros a _; apply rsum_nonneg; intros b _; destruct (a =? b); [lra | apply Rle_0_sqr].
Qed.

Definition jacobi_body (n : nat) (tolerance : R) (st : matrix R * matrix R * bool) : res (matrix R * matrix R * bool) :=
  let '(D, E, stop) := st in
  if stop then Ok st
  else
    let* mx := jacobi_scan n D in
    let '(max_val, (p, q)) := mx in
    if rltb max_val tolerance then Ok (D, E, true)
    else
      let* app := mat_at D p p in
      let* aqq := mat_at D q q in
      let* apq := mat_at D p q in
      let theta := (/ 2 * atan2 (2 * apq) (aqq - app))%R in
      let c := cos theta in
      let s := sin theta in
      let* D := jacobi_rotate_d n p q app aqq apq c s D in
      let* E := jacobi_rotate_e n p q c s E in
      Ok (D, E, false).

Section Run.
  Variables (n : nat) (A : nat -> nat -> R) (tol : R).
  Hypothesis A_sym : forall i j, i < n -> j < n -> A i j = A j i.
  Hypothesis ok : 2 <= n \/ (0 < tol)%R.

  Definition jac_state (k : nat) (st : matrix R * matrix R * bool) : Prop :=
    exists d e, MRepr (fst (fst st)) n n d /\ MRepr (snd (fst st)) n n e /\ jac_inv n A d e /\
      (snd st = true -> forall i j, i < j < n -> (Rabs (d i j) < tol)%R) /\
      (snd st = false -> 2 <= n -> (off2 n d <= rate n ^ k * off2 n A)%R).

  Lemma jac_body_ok k st : jac_state k st -> exists st', jacobi_body n tol st = Ok st' /\ jac_state (S k) st'.
  Proof.
    destruct st as [[D E] stop]; intros (d & e & RD & RE & Inv & Hs & Hg); cbn [fst snd] in *.
    unfold jacobi_body; destruct stop.
    { exists (D, E, true); split; auto; exists d, e; cbn [fst snd]; split; auto; split; auto; split; auto; split; auto; discriminate. }
    destruct (jacobi_scan_spec n D d RD) as (m & p & q & -> & M0 & MB & MC); cbn [bind].
    destruct (rltb m tol) eqn:Et.
    { apply rltb_spec in Et; exists (D, E, true); split; auto; exists d, e; cbn [fst snd]; split; auto; split; auto; split; auto.
      split; [|discriminate]; intros _ i j H; specialize (MB i j H); lra. }
    apply rltb_false in Et.
    assert (HN : 2 <= n).
    { destruct ok; auto; destruct MC as [[M1 _]|[M1 _]]; [lra | lia]. }
    assert (PQ : p < q < n /\ m = Rabs (d p q)).
    { destruct MC as [(M1 & -> & ->)|H]; auto; split; [lia|].
      assert (H : 0 < 1 < n) by lia; specialize (MB 0 1 H); pose proof (Rabs_pos (d 0 1)); lra. }
    destruct PQ as [PQ PM]; rewrite !(mat_at_ok _ _ _ _ _ _ RD) by lia; cbn [bind].
    set (t := (/ 2 * atan2 (2 * d p q) (d q q - d p p))%R).
    destruct (rotate_d_spec n p q (cos t) (sin t) D d RD) as (D' & -> & RD'); try lia; cbn [bind].
    destruct (rotate_e_spec n p q (cos t) (sin t) E e RE) as (E' & -> & RE'); try lia; cbn [bind].
    assert (CS : (cos t * cos t + sin t * sin t = 1)%R) by (pose proof (sin2_cos2 t) as X; unfold Rsqr in X; lra).
    assert (J : jac_inv n A (rot_d p q (cos t) (sin t) d) (rot_e p q (cos t) (sin t) e)).
    { apply jac_step; try lia; auto; apply jacobi_angle. }
    eexists; split; [reflexivity|]; exists (rot_d p q (cos t) (sin t) d), (rot_e p q (cos t) (sin t) e); cbn [fst snd].
    split; auto; split; auto; split; auto; split; [discriminate|]; intros _ _.
    rewrite off2_step; try lia; auto; [|apply (j_sym n A d e Inv)].
    specialize (Hg eq_refl HN).
    assert (B := off2_bound n d m (j_sym n A d e Inv) M0 MB).
    assert (MM : (m * m = d p q * d p q)%R).
    { rewrite PM, <- Rabs_mult, Rabs_right; auto; apply Rle_ge, Rle_0_sqr. }
    rewrite MM in B; pose proof (rate_bounds n HN) as RB.
    assert (N2 : (2 <= INR n)%R) by (change 2%R with (INR 2); apply le_INR; auto).
    assert (NN : (0 < INR n * (INR n - 1))%R) by nra.
    assert (S1 : (off2 n d - 2 * (d p q * d p q) <= rate n * off2 n d)%R).
    { unfold rate; assert (X : (off2 n d * / (INR n * (INR n - 1)) <= d p q * d p q)%R).
      { apply Rmult_le_reg_r with (INR n * (INR n - 1))%R; auto; rewrite Rmult_assoc, Rinv_l by lra; lra. }
      unfold Rdiv; lra. }
    apply Rle_trans with (1 := S1); cbn [pow]; rewrite Rmult_assoc; apply Rmult_le_compat_l; lra.
  Qed.
End Run.

Lemma jacobi_eigen_solver_spec A n f max_iterations tol : MRepr A n n f -> (forall i j, i < n -> j < n -> f i j = f j i) ->
  2 <= n \/ (0 < tol)%R ->
  exists ev E e d, jacobi_eigen_solver A max_iterations tol = Ok (ev, E) /\ MRepr E n n e /\ length ev = n /\
    (forall i, i < n -> nth i ev 0%R = d i i) /\ jac_inv n f d e /\
    ((forall i j, i < j < n -> (Rabs (d i j) < tol)%R) \/
     (2 <= n -> (off2 n d <= rate n ^ Z.to_nat max_iterations * off2 n f)%R)).
Proof.
  intros HA Sy Hok; unfold jacobi_eigen_solver; pose proof HA as (HR & HC & _); rewrite HR, HC, Nat.eqb_refl; cbn [negb].
  match goal with |- context [for_range n ?body (mat_new 0%R n n)] =>
    destruct (for_range_inv n (fun k M => MRepr M n n (fun a b => if (a =? b) && (a <? k) then 1%R else 0%R)) body (mat_new 0%R n n)) as (E0 & -> & HE0) end.
  { eapply MRepr_ext; [apply mat_new_MRepr|]; intros a b _ _; cbv beta; destruct (a =? b); auto. }
  { intros i M Hi HM; destruct (mat_set_ok M n n _ i i 1%R HM Hi Hi) as (M' & -> & HM'); exists M'; split; auto.
    eapply MRepr_ext; [exact HM'|]; intros a b _ _; unfold fset.
    destruct (Nat.eqb_spec a i), (Nat.eqb_spec b i), (Nat.eqb_spec a b), (Nat.ltb_spec a i), (Nat.ltb_spec a (S i)); cbn [andb]; auto; lia. }
  cbn [bind].
  change (for_range (Z.to_nat max_iterations) _ (A, E0, false))
    with (for_range (Z.to_nat max_iterations) (fun _ st => jacobi_body n tol st) (A, E0, false)).
  destruct (for_range_inv (Z.to_nat max_iterations) (jac_state n f tol) (fun _ st => jacobi_body n tol st) (A, E0, false)) as ([[D E] stop] & -> & HS).
  { exists f, (fun a b => if a =? b then 1%R else 0%R); cbn [fst snd]; split; auto; split.
    - eapply MRepr_ext; [exact HE0|]; intros a b Ha _; cbv beta; destruct (Nat.ltb_spec a n); [|lia]; rewrite Bool.andb_true_r; auto.
    - split; [apply jac_start; auto|]; split; [discriminate|]; intros _ _; cbn [pow]; lra. }
  { intros i st _ H; apply jac_body_ok; auto. }
  destruct HS as (d & e & RD & RE & Inv & Hs & Hg); cbn [fst snd] in *; cbn [bind].
  match goal with |- context [for_range n ?body (repeat 0%R n)] =>
    destruct (for_range_inv n (fun k ev => length ev = n /\ forall i, i < k -> nth i ev 0%R = d i i) body (repeat 0%R n)) as (ev & -> & L & HV) end.
  { split; [apply repeat_length | intros i Hi; lia]. }
  { intros i ev Hi [L HV]; rewrite (mat_at_ok _ _ _ _ _ _ RD) by lia; cbn [bind]; rewrite vset_ok by lia.
    eexists; split; [reflexivity|]; rewrite list_upd_length; split; auto.
    intros j Hj; destruct (Nat.eq_dec j i) as [->|Nj].
    - apply nth_error_nth; rewrite list_upd_same; auto; lia.
    - rewrite <- (HV j) by lia.
      destruct (nth_error ev j) as [x|] eqn:Ex; [|apply nth_error_None in Ex; lia].
      rewrite (nth_error_nth _ _ 0%R Ex); apply nth_error_nth; rewrite list_upd_other; auto. }
  exists ev, E, e, d; split; auto; split; auto; split; auto; split; auto; split; auto.
  destruct stop; [left; apply Hs; auto | right; intros H; apply Hg; auto].
Qed.

(** ** consequences of the invariant *)
Section Consequences.
  Variables (n : nat) (A D E : nat -> nat -> R).
  Hypothesis A_sym : forall i j, i < n -> j < n -> A i j = A j i.
  Hypothesis Inv : jac_inv n A D E.
  Notation col a := (fun k => E k a).

  (** Parseval *)
  Lemma parseval x : rsum (fun b => rdot n (col b) x * rdot n (col b) x)%R (seq 0 n) = rdot n x x.
  Proof.
    unfold rdot at 1 2.
    rewrite (rsum_ext _ (fun b => rsum (fun k => rsum (fun l => (x k * x l) * (E k b * E l b))%R (seq 0 n)) (seq 0 n))).
    2:{ intros b _; rewrite rsum_mul; apply rsum_ext; intros k _; apply rsum_ext; intros l _; ring. }
    rewrite rsum_swap; unfold rdot; apply rsum_ext; intros k Hk; apply in_seq in Hk; rewrite rsum_swap.
    rewrite (rsum_ext _ (fun l => if k =? l then x k * x l else 0)%R).
    - rewrite (rsum_single _ n k) by (try lia; intros i _ Ni; apply not_eq_sym, Nat.eqb_neq in Ni; rewrite Ni; auto).
      rewrite Nat.eqb_refl; auto.
    - intros l Hl; apply in_seq in Hl; rewrite rsum_scale; change (rsum _ (seq 0 n)) with (rdot n (E k) (E l)).
      rewrite (j_comp n A D E Inv) by lia; destruct (k =? l); ring.
  Qed.

  (** how far a column is from being an eigenvector *)
  Definition residual (a : nat) (lambda : R) : R :=
    let r k := (rsum (fun l => A k l * E l a) (seq 0 n) - lambda * E k a)%R in rsum (fun k => r k * r k)%R (seq 0 n).

  Lemma residual_eq a : a < n ->
    residual a (D a a) = rsum (fun b => if a =? b then 0 else D a b * D a b)%R (seq 0 n).
  Proof.
    intros Ha; unfold residual; set (r := fun k => (rsum (fun l => A k l * E l a) (seq 0 n) - D a a * E k a)%R).
    change (rdot n r r = rsum (fun b => if a =? b then 0 else D a b * D a b)%R (seq 0 n)).
    rewrite <- parseval; apply rsum_ext; intros b Hb; apply in_seq in Hb.
    assert (H : rdot n (col b) r = (D b a - D a a * (if b =? a then 1 else 0))%R).
    { rewrite (j_bil n A D E Inv b a), <- (j_orth n A D E Inv b a) by lia; unfold bil, rdot; rewrite <- rsum_scale, <- rsum_sub.
      apply rsum_ext; intros k _; unfold r; rewrite Rmult_minus_distr_l, <- rsum_scale; f_equal; [|ring].
      apply rsum_ext; intros l _; ring. }
    rewrite H, (Nat.eqb_sym b a), (j_sym n A D E Inv b a) by lia; destruct (Nat.eqb_spec a b) as [->|N]; ring.
  Qed.

  Lemma residual_sum : rsum (fun a => residual a (D a a)) (seq 0 n) = off2 n D.
  Proof. unfold off2; apply rsum_ext; intros a Ha; apply in_seq in Ha; apply residual_eq; lia. Qed.

  (** expansion of the quadratic form *)
  Lemma expand v k : k < n -> v k = rsum (fun a => rdot n (col a) v * E k a)%R (seq 0 n).
  Proof.
    intros Hk; unfold rdot.
    rewrite (rsum_ext _ (fun a => rsum (fun l => v l * (E k a * E l a))%R (seq 0 n))).
    2:{ intros a _; rewrite Rmult_comm, <- rsum_scale; apply rsum_ext; intros l _; ring. }
    rewrite rsum_swap, (rsum_single _ n k Hk).
    - rewrite rsum_scale; change (rsum _ (seq 0 n)) with (rdot n (E k) (E k)); rewrite (j_comp n A D E Inv), Nat.eqb_refl by auto; ring.
    - intros l Hl N; rewrite rsum_scale; change (rsum _ (seq 0 n)) with (rdot n (E k) (E l)).
      rewrite (j_comp n A D E Inv) by auto; apply not_eq_sym, Nat.eqb_neq in N; rewrite N; ring.
  Qed.

  Lemma bil_sum_l w u l : bil n A (fun k => rsum (fun a => w a * E k a)%R l) u = rsum (fun a => w a * bil n A (col a) u)%R l.
  Proof.
    induction l as [|a l IH].
    - unfold bil; rewrite rsum_zero; [reflexivity|]; intros k _; apply rsum_zero; intros j _; unfold bsum; cbn; ring.
    - rewrite rsum_cons, <- IH.
      rewrite (bil_ext n A _ u (fun k => w a * E k a + 1 * rsum (fun a => w a * E k a) l)%R u) by (intros; rewrite ?rsum_cons; try ring; auto).
      rewrite bil_comb_l; ring.
  Qed.
  Lemma bil_sum_r w u l : bil n A u (fun k => rsum (fun a => w a * E k a)%R l) = rsum (fun a => w a * bil n A u (col a))%R l.
  Proof. rewrite bil_sym, bil_sum_l by auto; apply rsum_ext; intros a _; rewrite bil_sym by auto; auto. Qed.

  Lemma bil_expand v : bil n A v v =
    rsum (fun a => rsum (fun b => rdot n (col a) v * rdot n (col b) v * D a b)%R (seq 0 n)) (seq 0 n).
  Proof.
    rewrite (bil_ext n A v v _ _ (fun k Hk => expand v k Hk) (fun k Hk => expand v k Hk)).
    rewrite bil_sum_l; apply rsum_ext; intros a Ha; apply in_seq in Ha; rewrite bil_sum_r, <- rsum_scale.
    apply rsum_ext; intros b Hb; apply in_seq in Hb; rewrite (j_bil n A D E Inv a b) by lia; ring.
  Qed.

  (** the least diagonal element nearly minimises the quadratic form *)
  Lemma rayleigh v m w : (forall a, a < n -> (m <= D a a)%R) -> rdot n v v = 1%R -> (0 < w)%R -> (off2 n D <= w * w)%R ->
    (m <= bil n A v v + w)%R.
  Proof.
    intros Hm Hv W0 HW; rewrite bil_expand; set (c := fun a => rdot n (col a) v).
    change (m <= rsum (fun a => rsum (fun b => c a * c b * D a b) (seq 0 n)) (seq 0 n) + w)%R.
    assert (HC : rsum (fun a => c a * c a)%R (seq 0 n) = 1%R) by (unfold c; rewrite parseval; auto).
    set (lower := fun a b => (if a =? b then c a * c a * m else - (w / 2 * (c a * c a * (c b * c b))) - / (2 * w) * (D a b * D a b))%R).
    assert (HL : (rsum (fun a => rsum (lower a) (seq 0 n)) (seq 0 n) <= rsum (fun a => rsum (fun b => c a * c b * D a b) (seq 0 n)) (seq 0 n))%R).
    { apply rsum_le; intros a Ha; apply in_seq in Ha; apply rsum_le; intros b Hb; apply in_seq in Hb; unfold lower.
      destruct (Nat.eqb_spec a b) as [->|N].
      - apply Rmult_le_compat_l; [apply Rle_0_sqr | apply Hm; lia].
      - set (x := (c a * c b)%R); set (y := D a b).
        replace (c a * c a * (c b * c b))%R with (x * x)%R by (unfold x; ring).
        assert (SQ : (0 <= / (2 * w) * ((w * x + y) * (w * x + y)))%R).
        { apply Rmult_le_pos; [left; apply Rinv_0_lt_compat; lra | apply Rle_0_sqr]. }
        replace (/ (2 * w) * ((w * x + y) * (w * x + y)))%R with (w / 2 * (x * x) + x * y + / (2 * w) * (y * y))%R in SQ by (field; lra).
        lra. }
    assert (HB : (m - w / 2 - / (2 * w) * off2 n D <= rsum (fun a => rsum (lower a) (seq 0 n)) (seq 0 n))%R).
    { apply Rle_trans with (rsum (fun a => c a * c a * m - w / 2 * (c a * c a) - / (2 * w) * rsum (fun b => if a =? b then 0 else D a b * D a b) (seq 0 n))%R (seq 0 n)).
      - rewrite !rsum_sub, !rsum_scale; change (rsum _ (seq 0 n)) with (off2 n D) at 3.
        rewrite (rsum_ext (fun i => c i * c i * m)%R (fun i => m * (c i * c i))%R) by (intros; ring); rewrite rsum_scale, HC; lra.
      - apply rsum_le; intros a Ha; apply in_seq in Ha; rewrite <- rsum_scale.
        replace (c a * c a * m - w / 2 * (c a * c a))%R with
          (rsum (fun b => (if a =? b then c a * c a * m else 0) - w / 2 * (c a * c a) * (c b * c b))%R (seq 0 n)).
        2:{ rewrite rsum_sub, rsum_scale, HC, (rsum_single _ n a) by (try lia; intros i _ Ni; apply not_eq_sym, Nat.eqb_neq in Ni; rewrite Ni; auto).
            rewrite Nat.eqb_refl; ring. }
        rewrite <- rsum_sub; apply rsum_le; intros b _; unfold lower; destruct (a =? b); [|lra].
        assert (0 <= w / 2 * (c a * c a) * (c b * c b))%R; [|lra].
        apply Rmult_le_pos; [apply Rmult_le_pos; [lra | apply Rle_0_sqr] | apply Rle_0_sqr]. }
    assert (HO : (/ (2 * w) * off2 n D <= w / 2)%R).
    { apply Rle_trans with (/ (2 * w) * (w * w))%R; [apply Rmult_le_compat_l; auto; left; apply Rinv_0_lt_compat; lra|].
      right; field; lra. }
    lra.
  Qed.

  Lemma rayleigh_sqrt v m : (forall a, a < n -> (m <= D a a)%R) -> rdot n v v = 1%R -> (m <= bil n A v v + sqrt (off2 n D))%R.
  Proof.
    intros Hm Hv; apply le_epsilon; intros eps He.
    rewrite Rplus_assoc; apply rayleigh; auto.
    - pose proof (sqrt_pos (off2 n D)); lra.
    - pose proof (sqrt_pos (off2 n D)); pose proof (sqrt_sqrt _ (off2_nonneg n D)); nra.
  Qed.
End Consequences.

(** ** std::min_element *)
Lemma min_index_spec l : l <> [] -> min_index l < length l /\ forall i, i < length l -> (nth (min_index l) l 0 <= nth i l 0)%R.
Proof.
  intros NE; unfold min_index.
  set (step := fun (st : nat * nat) x => let '(best, i) := st in (if rltb x (nth best l 0%R) then i else best, S i)).
  assert (G : forall l2 l1 best, l = l1 ++ l2 -> best < length l -> (forall i, i < length l1 -> (nth best l 0 <= nth i l 0)%R) ->
    fst (fold_left step l2 (best, length l1)) < length l /\ forall i, i < length l -> (nth (fst (fold_left step l2 (best, length l1))) l 0 <= nth i l 0)%R).
  { induction l2 as [|x l2 IH]; intros l1 best El Hb H.
    - rewrite app_nil_r in El; subst l1; cbn [fold_left fst]; auto.
    - cbn [fold_left]; unfold step at 2 4.
      assert (Nx : nth (length l1) l 0%R = x) by (rewrite El, app_nth2, Nat.sub_diag by lia; auto).
      assert (Lx : length l1 < length l) by (rewrite El, app_length; cbn [length]; lia).
      replace (S (length l1)) with (length (l1 ++ [x])) by (rewrite app_length; cbn [length]; lia).
      apply IH; [rewrite El, <- app_assoc; auto | destruct (rltb x (nth best l 0%R)); auto |].
      intros i Hi; rewrite app_length in Hi; cbn [length] in Hi.
      destruct (rltb x (nth best l 0%R)) eqn:Er.
      + apply rltb_spec in Er; rewrite Nx; destruct (Nat.eq_dec i (length l1)) as [->|Ni]; [rewrite Nx; lra|].
        assert (nth best l 0 <= nth i l 0)%R by (apply H; lia); lra.
      + apply rltb_false in Er; destruct (Nat.eq_dec i (length l1)) as [->|Ni]; [rewrite Nx; lra | apply H; lia]. }
  destruct l as [|x l0] eqn:El; [tauto|]; rewrite <- El in *; apply (G l [] 0); auto; [subst; cbn; lia | intros i Hi; cbn in Hi; lia].
Qed.

(** ** svd_solve_ah_zero *)
Definition norm2_image (r n : nat) (f : nat -> nat -> R) (v : nat -> R) : R :=
  rsum (fun k => rsum (fun i => f k i * v i) (seq 0 n) * rsum (fun i => f k i * v i) (seq 0 n))%R (seq 0 r).
Definition gram (r : nat) (f : nat -> nat -> R) (i j : nat) : R := rsum (fun k => f k i * f k j)%R (seq 0 r).

Lemma norm2_bil r n f v : norm2_image r n f v = bil n (gram r f) v v.
Proof.
  unfold norm2_image, bil, gram.
  rewrite (rsum_ext _ (fun k => rsum (fun i => rsum (fun j => v i * v j * (f k i * f k j))%R (seq 0 n)) (seq 0 n))).
  2:{ intros k _; rewrite rsum_mul; apply rsum_ext; intros i _; apply rsum_ext; intros j _; ring. }
  rewrite rsum_swap; apply rsum_ext; intros i _; rewrite rsum_swap; apply rsum_ext; intros j _.
  rewrite rsum_scale; ring.
Qed.

Lemma svd_spec A r n f : MRepr A r n f -> 1 <= n ->
  exists h d e, svd_solve_ah_zero A = Ok h /\ length h = n /\ jac_inv n (gram r f) d e /\
    (exists a, a < n /\ (forall i, i < n -> nth i h 0%R = e i a) /\ forall b, b < n -> (d a a <= d b b)%R) /\
    ((forall i j, i < j < n -> (Rabs (d i j) < / 1000000000)%R) \/ (2 <= n -> (off2 n d <= rate n ^ 100 * off2 n (gram r f))%R)).
Proof.
  intros HA Hn; pose proof HA as (_ & HC & _); unfold svd_solve_ah_zero.
  destruct (transpose_spec 0%R A r n f HA) as (T & -> & HT); cbn [bind].
  destruct (multiply_spec 0%R Rplus Rmult T A n r n _ f HT HA) as (G & -> & HG); cbn [bind].
  change (MRepr G n n (gram r f)) in HG.
  destruct (jacobi_eigen_solver_spec G n (gram r f) 100 (/ 1000000000) HG) as (ev & E & e & d & -> & HE & HL & HV & Inv & Hc).
  { intros i j _ _; apply rsum_ext; intros k _; ring. }
  { right; lra. }
  cbn [bind].
  assert (NE : ev <> []) by (intros ->; cbn in HL; lia).
  destruct (min_index_spec ev NE) as [M1 M2]; set (a := min_index ev) in *; clearbody a; rewrite HL in M1, M2.
  rewrite HC.
  match goal with |- context [for_range n ?body (repeat 0%R n)] =>
    destruct (for_range_inv n (fun k h => length h = n /\ forall i, i < k -> nth i h 0%R = e i a) body (repeat 0%R n)) as (h & Eh & L & HH) end.
  { split; [apply repeat_length | intros i Hi; lia]. }
  { intros i h Hi [L HH]; rewrite (mat_at_ok _ _ _ _ _ _ HE) by lia; cbn [bind]; rewrite vset_ok by lia.
    eexists; split; [reflexivity|]; rewrite list_upd_length; split; auto.
    intros j Hj; destruct (Nat.eq_dec j i) as [->|Nj].
    - apply nth_error_nth; rewrite list_upd_same; auto; lia.
    - rewrite <- (HH j) by lia.
      destruct (nth_error h j) as [x|] eqn:Ex; [|apply nth_error_None in Ex; lia].
      rewrite (nth_error_nth _ _ 0%R Ex); apply nth_error_nth; rewrite list_upd_other; auto. }
  exists h, d, e; split; auto; split; auto; split; auto; split; auto.
  exists a; split; auto; split; auto; intros b Hb; rewrite <- !HV by auto; auto.
Qed.
