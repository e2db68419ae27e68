(** ElemProofs.v - lemmas about ElemModel.v *)
From Coq Require Import Reals Lra Psatz Permutation Lia.
From Verif Require Import Base ImageModel ImageFacts ImageProofs PixelModel PixelProofs HistModel ReduceModel ReduceProofs CommandProofs ArithModel ArithProofs ElemModel.
Open Scope nat_scope.

Lemma rle_true a b : (a <= b)%R -> rle a b = true.
Proof. unfold rle; destruct (Rle_dec a b); auto; contradiction. Qed.
Lemma rle_false a b : (b < a)%R -> rle a b = false.
Proof. unfold rle; destruct (Rle_dec a b); auto; lra. Qed.
Lemma rlt_true a b : (a < b)%R -> rlt a b = true.
Proof. unfold rlt; destruct (Rlt_dec a b); auto; contradiction. Qed.
Lemma rlt_false a b : (b <= a)%R -> rlt a b = false.
Proof. unfold rlt; destruct (Rlt_dec a b); auto; lra. Qed.
Lemma req_true a b : a = b -> req a b = true.
Proof. unfold req; destruct (Req_EM_T a b); auto; contradiction. Qed.
Lemma req_false a b : a <> b -> req a b = false.
Proof. unfold req; destruct (Req_EM_T a b); auto; contradiction. Qed.

(** ** roundings *)
Lemma rfloor_spec x : (rfloor x <= x < rfloor x + 1)%R.
Proof. unfold rfloor; pose proof (base_Int_part x) as [H1 H2]; lra. Qed.
Lemma Int_part_IZR z : Int_part (IZR z) = z.
Proof.
  pose proof (base_Int_part (IZR z)) as [H1 H2].
  assert (Int_part (IZR z) <= z)%Z by (apply le_IZR; lra); assert (z - 1 < Int_part (IZR z))%Z by (apply lt_IZR; rewrite minus_IZR; lra); lia.
Qed.
Lemma rceil_spec x : (rceil x - 1 < x <= rceil x)%R.
Proof. unfold rceil; pose proof (rfloor_spec (- x)); lra. Qed.
Lemma rceil_IZR x : exists z, rceil x = IZR z.
Proof. unfold rceil, rfloor; eexists; rewrite <- opp_IZR; reflexivity. Qed.
Lemma rtrunc_IZR x : exists z, rtrunc x = IZR z.
Proof. unfold rtrunc; destruct (rle 0 x); [unfold rfloor; eauto | apply rceil_IZR]. Qed.
Lemma rtrunc_pos x : (0 <= x)%R -> (0 <= rtrunc x <= x)%R /\ (x < rtrunc x + 1)%R.
Proof.
  intros H; unfold rtrunc; rewrite rle_true by exact H; pose proof (rfloor_spec x) as [H1 H2]; split; [|lra]; split; [|lra].
  unfold rfloor in *; apply IZR_le; assert (-1 < Int_part x)%Z by (apply lt_IZR; lra); lia.
Qed.
Lemma rtrunc_neg x : (x <= 0)%R -> (x <= rtrunc x <= 0)%R /\ (rtrunc x - 1 < x)%R.
Proof.
  intros H; destruct (Req_dec x 0) as [-> | N].
  - destruct (rtrunc_pos 0) as [A B]; lra.
  - unfold rtrunc; rewrite rle_false by lra; pose proof (rceil_spec x) as [H1 H2]; split; [|lra]; split; [lra|].
    destruct (rceil_IZR x) as [z E]; rewrite E in *; apply IZR_le; assert (z - 1 < 0)%Z by (apply lt_IZR; rewrite minus_IZR; lra); lia.
Qed.
Lemma rnear_spec x : exists z, rnear x = IZR z /\ (Rabs (x - IZR z) <= 1 / 2)%R /\ (Rabs (x - IZR z) = 1 / 2 -> Z.even z = true)%R.
Proof.
  pose proof (rfloor_spec x) as [F1 F2]; unfold rnear; cbv zeta; unfold rlt.
  destruct (Rlt_dec (x - rfloor x) (1 / 2)) as [A|A].
  - exists (Int_part x); fold (rfloor x); split; [reflexivity|]; rewrite Rabs_right by lra; split; [lra | intros; lra].
  - destruct (Rlt_dec (1 / 2) (x - rfloor x)) as [B|B].
    + exists (Int_part x + 1)%Z; rewrite plus_IZR; fold (rfloor x); split; [reflexivity|]; rewrite Rabs_left by lra; split; [lra | intros; lra].
    + destruct (Z.even (Int_part x)) eqn:E.
      * exists (Int_part x); fold (rfloor x); split; [reflexivity|]; rewrite Rabs_right by lra; split; [lra | auto].
      * exists (Int_part x + 1)%Z; rewrite plus_IZR; fold (rfloor x); split; [reflexivity|]; rewrite Rabs_left by lra; split; [lra|]; intros _; rewrite Z.even_add, E; reflexivity.
Qed.

(** ** functions and their inverses *)
Lemma cosh_ge1 x : (1 <= cosh x)%R.
Proof.
  unfold cosh; assert (E : (exp x * exp (- x) = 1)%R) by (rewrite <- exp_plus; replace (x + - x)%R with 0%R by ring; apply exp_0).
  pose proof (exp_pos x); pose proof (exp_pos (- x)); pose proof (Rle_0_sqr (exp x - exp (- x))) as S; unfold Rsqr in S; nra.
Qed.
Lemma cosh_sinh x : (cosh x ^ 2 - sinh x ^ 2 = 1)%R.
Proof.
  unfold cosh, sinh; assert (E : (exp x * exp (- x) = 1)%R) by (rewrite <- exp_plus; replace (x + - x)%R with 0%R by ring; apply exp_0); nra.
Qed.
Lemma sinh_nonneg x : (0 <= x)%R -> (0 <= sinh x)%R.
Proof. intros H; unfold sinh; assert (exp (- x) <= exp x)%R by (destruct (Req_dec x 0) as [-> | N]; [rewrite Ropp_0; lra | left; apply exp_increasing; lra]); lra. Qed.
Lemma acosh_cosh x : (0 <= x)%R -> (ln (cosh x + sqrt (cosh x ^ 2 - 1)) = x)%R.
Proof.
  intros H; replace (cosh x ^ 2 - 1)%R with (sinh x * sinh x)%R by (pose proof (cosh_sinh x); nra); rewrite sqrt_square by (apply sinh_nonneg, H).
  replace (cosh x + sinh x)%R with (exp x) by (unfold cosh, sinh; lra); apply ln_exp.
Qed.
Lemma cosh_acosh x : (1 <= x)%R -> (cosh (ln (x + sqrt (x ^ 2 - 1))) = x)%R.
Proof.
  intros H; set (s := sqrt (x ^ 2 - 1)); assert (S1 : (s * s = x ^ 2 - 1)%R) by (apply sqrt_sqrt; nra); assert (S0 : (0 <= s)%R) by apply sqrt_pos.
  unfold cosh; rewrite exp_Ropp, exp_ln by lra; field_simplify_eq; [nra | lra].
Qed.
Lemma tanh_bound x : (-1 < tanh x < 1)%R.
Proof.
  unfold tanh, sinh, cosh; pose proof (exp_pos x) as A; pose proof (exp_pos (- x)) as B; set (a := exp x) in *; set (b := exp (- x)) in *.
  assert (E : ((a - b) / 2 / ((a + b) / 2) = (a - b) / (a + b))%R) by (field; lra); rewrite E; split.
  - apply (Rmult_lt_reg_r (a + b)); [lra|]; unfold Rdiv; rewrite Rmult_assoc, Rinv_l by lra; lra.
  - apply (Rmult_lt_reg_r (a + b)); [lra|]; unfold Rdiv; rewrite Rmult_assoc, Rinv_l by lra; lra.
Qed.
Lemma atanh_tanh x : (1 / 2 * ln ((1 + tanh x) / (1 - tanh x)) = x)%R.
Proof.
  replace ((1 + tanh x) / (1 - tanh x))%R with (exp (2 * x)); [rewrite ln_exp; lra|].
  pose proof (tanh_bound x) as T; unfold tanh, sinh, cosh in *; pose proof (exp_pos x) as A; pose proof (exp_pos (- x)) as B.
  replace (2 * x)%R with (x + x)%R by ring; rewrite exp_plus; rewrite exp_Ropp in *; set (a := exp x) in *; clearbody a.
  field_simplify_eq; [ring|]; repeat split; try lra; nra.
Qed.
Lemma tanh_atanh x : (-1 < x < 1)%R -> (tanh (1 / 2 * ln ((1 + x) / (1 - x))) = x)%R.
Proof.
  intros H; set (y := (1 / 2 * ln ((1 + x) / (1 - x)))%R).
  assert (Q : (0 < (1 + x) / (1 - x))%R) by (apply Rdiv_lt_0_compat; lra).
  assert (E : (exp y * exp y = (1 + x) / (1 - x))%R) by (rewrite <- exp_plus; replace (y + y)%R with (ln ((1 + x) / (1 - x))) by (unfold y; lra); apply exp_ln, Q).
  unfold tanh, sinh, cosh; rewrite exp_Ropp; pose proof (exp_pos y) as A; set (a := exp y) in *; clearbody a.
  assert (E' : (a * a * (1 - x) = 1 + x)%R) by (rewrite E; field; lra).
  replace ((a - / a) / 2 / ((a + / a) / 2))%R with ((a * a - 1) / (a * a + 1))%R by (field; split; nra).
  apply (Rmult_eq_reg_r (a * a + 1)); [|nra]; unfold Rdiv; rewrite Rmult_assoc, Rinv_l by nra; nra.
Qed.
Lemma pow2_pos x : (0 < x)%R -> Rpower x 2 = (x ^ 2)%R.
Proof. intros H; change 2%R with (INR 2); rewrite Rpower_pow by exact H; reflexivity. Qed.
Lemma rpow_nat x n : n <> 0 -> rpow x (INR n) = Some (x ^ n)%R.
Proof.
  intros N; unfold rpow; assert (E : Int_part (INR n) = Z.of_nat n) by (rewrite INR_IZR_INZ; apply Int_part_IZR).
  assert (P : (0 < INR n)%R) by (apply lt_0_INR; lia).
  destruct (Rlt_dec 0 x) as [L|L].
  - rewrite rlt_true, Rpower_pow by exact L; reflexivity.
  - rewrite rlt_false by lra; rewrite req_true by (unfold rfloor; rewrite E, <- INR_IZR_INZ; reflexivity).
    destruct (Req_dec x 0) as [-> | M].
    + rewrite req_true by reflexivity; rewrite rlt_false by lra; rewrite req_false by lra; rewrite pow_ne_zero by exact N; reflexivity.
    + rewrite req_false by exact M; rewrite E, <- pow_powerRZ; reflexivity.
Qed.
Lemma cbrt_cube x : rcbrt (x ^ 3)%R = x.
Proof.
  assert (G : forall y, (0 < y)%R -> Rpower (y ^ 3) (1 / 3) = y).
  { intros y H; rewrite <- (Rpower_pow 3 y H), Rpower_mult; replace (INR 3 * (1 / 3))%R with 1%R by (cbn; field); apply Rpower_1, H. }
  unfold rcbrt; destruct (Rtotal_order x 0) as [L|[-> | L]].
  - assert ((x ^ 3 < 0)%R) by (assert (0 < (- x) ^ 3)%R by (apply pow_lt; lra); replace (x ^ 3)%R with (- (- x) ^ 3)%R by ring; lra).
    rewrite rlt_false by lra; rewrite rlt_true by lra; replace (- x ^ 3)%R with ((- x) ^ 3)%R by ring; rewrite G by lra; lra.
  - rewrite rlt_false, rlt_false by (cbn; lra); reflexivity.
  - assert ((0 < x ^ 3)%R) by (apply pow_lt; lra); rewrite rlt_true by lra; apply G; lra.
Qed.
Lemma cube_cbrt x : (rcbrt x ^ 3)%R = x.
Proof.
  assert (G : forall y, (0 < y)%R -> (Rpower y (1 / 3) ^ 3 = y)%R).
  { intros y H; rewrite <- (Rpower_pow 3) by apply exp_pos; rewrite Rpower_mult; replace (1 / 3 * INR 3)%R with 1%R by (cbn; field); apply Rpower_1, H. }
  unfold rcbrt; destruct (Rtotal_order x 0) as [L|[-> | L]].
  - rewrite rlt_false by lra; rewrite rlt_true by lra; replace ((- Rpower (- x) (1 / 3)) ^ 3)%R with (- (Rpower (- x) (1 / 3) ^ 3))%R by ring; rewrite G by lra; lra.
  - rewrite !rlt_false by lra; ring.
  - rewrite rlt_true by lra; apply G; lra.
Qed.

(** ** the loops *)
Lemma scalar_same f : image_scalar f = scalar f \/ f = Sec \/ f = Csc \/ f = Cot.
Proof. destruct f; auto. Qed.
Lemma image_scalar_eq f x : image_scalar f x = scalar f x.
Proof. destruct f; reflexivity. Qed.
Lemma apply_multichannel_ok pol f l : pol_ok pol -> apply_multichannel pol f l = Ok (map (lift f) l).
Proof. intros H; unfold apply_multichannel; apply transform_seq_ok; auto. Qed.
Lemma channelwise_ok pol f l : pol_ok pol -> channelwise pol f l = Ok (map (lift (scalar f)) l).
Proof. intros H; destruct f; cbn [channelwise]; rewrite apply_multichannel_ok by exact H; reflexivity. Qed.
Lemma lift_ext f g x : (forall r, f r = g r) -> lift f x = lift g x.
Proof. intros H; destruct x; cbn; auto. Qed.
Lemma image_fn_ok f im : wf im -> pix im <> [] -> image_fn f im = Ok (mkImage (dims im) (map (lift (scalar f)) (pix im))).
Proof.
  intros W N; unfold image_fn; rewrite (mapM_ok _ (lift (image_scalar f))) by reflexivity; cbn [bind].
  rewrite (map_ext _ _ (fun x => lift_ext _ _ x (image_scalar_eq f))); apply image_data_ok; [intros E; apply map_eq_nil in E; auto | rewrite map_length; exact W].
Qed.
Lemma image_fn_ReprN f im ds g : ReprN im ds g -> 0 < prodn ds -> exists o, image_fn f im = Ok o /\ ReprN o ds (fun i => lift (scalar f) (g i)).
Proof.
  intros (D & L & G) P; rewrite image_fn_ok; [|unfold wf; rewrite D; exact L | intros E; rewrite E in L; cbn in L; lia].
  eexists; split; [reflexivity|]; split; [exact D|]; split; [cbn [pix]; rewrite map_length; exact L|]; intros i Hi; cbn [pix]; rewrite nth_error_map, (G i Hi); reflexivity.
Qed.

(** ** sums of pixels *)
Definition csum (n : nat) (l : list (list R)) : list R := map (fun k => fold_right Rplus 0%R (map (fun p => nth k p 0%R) l)) (seq 0 n).
Lemma rsum_app l1 l2 : (fold_right Rplus 0 (l1 ++ l2) = fold_right Rplus 0 l1 + fold_right Rplus 0 l2)%R.
Proof. induction l1 as [|a l1 IH]; cbn [app fold_right]; [lra | rewrite IH; lra]. Qed.
Lemma rsum_perm l1 l2 : Permutation l1 l2 -> (fold_right Rplus 0 l1 = fold_right Rplus 0 l2)%R.
Proof. induction 1; cbn [fold_right]; lra. Qed.
Lemma nth_map_seq {A} (f : nat -> A) n k d : k < n -> nth k (map f (seq 0 n)) d = f k.
Proof. intros H; apply nth_error_nth; rewrite nth_error_map, nth_error_seq by exact H; reflexivity. Qed.
Lemma list_nth_ext {A} (d : A) p q : length p = length q -> (forall k, k < length p -> nth k p d = nth k q d) -> p = q.
Proof. intros L H; apply (nth_ext _ _ d d); auto. Qed.
Lemma add_channels_nth p q k : length p = length q -> k < length p -> nth k (add_channels p q) 0%R = (nth k p 0 + nth k q 0)%R.
Proof.
  intros L H; unfold add_channels; apply nth_error_nth; rewrite nth_error_map.
  assert (E : nth_error (combine p q) k = Some (nth k p 0%R, nth k q 0%R)).
  { rewrite <- (combine_nth p q k 0%R 0%R L); apply nth_error_nth'; rewrite combine_length; lia. }
  rewrite E; reflexivity.
Qed.
Lemma reduces_csum n l r : Forall (fun p => length p = n) l -> reduces add_channels l r -> r = csum n l.
Proof.
  intros H HR; revert H.
  assert (G : Forall (fun p => length p = n) l -> length r = n /\ forall k, k < n -> nth k r 0%R = fold_right Rplus 0%R (map (fun p => nth k p 0%R) l)).
  { apply (reduces_rel add_channels (fun l r => Forall (fun p => length p = n) l -> length r = n /\ forall k, k < n -> nth k r 0%R = fold_right Rplus 0%R (map (fun p => nth k p 0%R) l))) with (4 := HR).
    - intros a Fa; inversion Fa; subst; split; auto; intros k Hk; cbn; lra.
    - intros l1 l2 a b H1 H2 F12; apply Forall_app in F12 as [F1 F2]; destruct (H1 F1) as [L1 N1]; destruct (H2 F2) as [L2 N2].
      split; [unfold add_channels; rewrite map_length, combine_length; lia|]; intros k Hk.
      rewrite add_channels_nth by lia; rewrite N1, N2, map_app, rsum_app by exact Hk; reflexivity.
    - intros l1 l2 a P H1 F2; destruct H1 as [L1 N1]; [eapply Permutation_Forall; [apply Permutation_sym; exact P | exact F2]|]; split; auto; intros k Hk.
      rewrite N1 by exact Hk; apply rsum_perm, Permutation_map, P. }
  intros H; destruct (G H) as [L N]; unfold csum; apply (list_nth_ext 0%R); [rewrite map_length, seq_length; exact L|].
  intros k Hk; rewrite N by lia; rewrite nth_map_seq by lia; reflexivity.
Qed.
