(** PropFit.v - fitting and drawing Gaussians: C110 to C114. *)
From Coq Require Import Reals Lra Lia ZifyBool ZifyNat.
From Verif Require Import Base ImageModel ImageFacts IndexModel ImageProofs GeomModel GeomProofs PixelModel PixelProofs HistModel HistProofs
  NestedModel OField LinModel BigSum RSum ReduceModel ReduceProofs GaussModel GaussProofs PropGauss FrechetProofs FitModel FitProofs FitLoopProofs.
Open Scope nat_scope.
Ltac Zify.zify_post_hook ::= Z.div_mod_to_equations.

(** ** specification ([hump], [par]: FitProofs) *)
(** the sum of the squared differences between a picture and a Gaussian *)
Definition misfit (w h : nat) (f : nat -> nat -> R) (v : nat -> R) : R :=
  rsum (fun y => rsum (fun x => (f x y - hump v (INR x) (INR y)) ^ 2)%R (seq 0 w)) (seq 0 h).
(** one parameter changed *)
Definition vary (v : nat -> R) (k : nat) (t : R) : nat -> R := fun i => if i =? k then t else v i.
(** the partial derivative of F for parameter k, at v, is d *)
Definition partial_at (F : (nat -> R) -> R) (v : nat -> R) (k : nat) (d : R) : Prop := derivable_pt_lim (fun t => F (vary v k t)) (v k) d.

Lemma err_misfit w h f v : err w h f v = misfit w h f v.
Proof.
  unfold err, misfit.
  rewrite (rsum_ext _ (fun i => (fun x y => (f x y - hump v (INR x) (INR y)) ^ 2)%R (i mod w) (i / w))) by (intros i _; unfold zof, xof, yof; ring).
  apply (rsum_pixels w h (fun x y => (f x y - hump v (INR x) (INR y)) ^ 2)%R).
Qed.
Lemma regular_of p : (0 < g_sx p)%R -> (0 < g_sy p)%R -> (-1 < g_rho p < 1)%R -> regular p.
Proof. intros A B C; repeat split; [lra | lra | nra]. Qed.
Lemma derivable_ext F G x d : (forall t, F t = G t) -> derivable_pt_lim F x d -> derivable_pt_lim G x d.
Proof. intros E H eps Pe; destruct (H eps Pe) as (del & Hd); exists del; intros t Nt St; rewrite <- !E; auto. Qed.
Lemma misfit_partial w h f p k : regular p -> k < 6 -> partial_at (misfit w h f) (par p) k (-2 * gra w h f p k)%R.
Proof.
  intros RP Hk; unfold partial_at; apply (derivable_ext (fun t => err w h f (vary (par p) k t))); [intros; apply err_misfit|].
  apply (fr_partial 6 (err w h f) (par p) (fun k => -2 * gra w h f p k)%R k); auto using err_frechet, err_ext.
Qed.

(** ** C110 *)
Theorem C110_normal_equations im w h f p :
  Repr im w h f -> 0 < w -> 0 < h -> (0 < g_sx p)%R -> (0 < g_sy p)%R -> (-1 < g_rho p < 1)%R ->
  (exists acc, lm_acc im p acc) /\ (exists e, lm_sse im p e) /\
  (forall e, lm_sse im p e -> e = misfit w h f (par p)) /\
  forall acc, lm_acc im p acc ->
    a_sse acc = misfit w h f (par p) /\
    (forall k, k < 6 -> partial_at (misfit w h f) (par p) k (-2 * nth k (a_g acc) 0)%R) /\
    exists D, (forall k x y, k < 6 -> partial_at (fun v => hump v (INR x) (INR y)) (par p) k (D k x y)) /\
      forall k l, k < 6 -> l < 6 -> nth l (nth k (a_H acc) []) 0%R = rsum (fun y => rsum (fun x => D k x y * D l x y)%R (seq 0 w)) (seq 0 h).
Proof.
  intros HR Pw Ph Sx Sy Hr; assert (RP := regular_of p Sx Sy Hr).
  split; [exists (accf w h f p); apply (acc_iff im w h f HR Pw); auto|].
  split; [exists (err w h f (par p)); apply (sse_iff im w h f HR Pw); auto|].
  split; [intros e He; apply (sse_iff im w h f HR Pw) in He; auto; subst; apply err_misfit|].
  intros acc HA; apply (acc_iff im w h f HR Pw) in HA; auto; subst acc; unfold accf; cbn [a_sse a_g a_H].
  split; [apply err_misfit|]; split.
  - intros k Hk; rewrite nth_map_seq by auto; apply misfit_partial; auto.
  - exists (fun k x y => nth k (jac p (INR x) (INR y)) 0%R); split.
    + intros k x y Hk; apply (fr_partial 6 (fun v => hump v (INR x) (INR y)) (par p) (fun k => nth k (jac p (INR x) (INR y)) 0%R) k);
        auto using hump_frechet; intros v v' E; apply hump_ext; auto.
    + intros k l Hk Hl; rewrite !nth_map_seq by auto; unfold hes.
      apply (rsum_pixels w h (fun x y => nth k (jac p (INR x) (INR y)) 0 * nth l (jac p (INR x) (INR y)) 0)%R).
Qed.
Print Assumptions C110_normal_equations.

(** the correction tried from any point goes downhill *)
Theorem C110_downhill im w h f p acc lambda :
  Repr im w h f -> 0 < w -> 0 < h -> (0 < g_sx p)%R -> (0 < g_sy p)%R -> (-1 < g_rho p < 1)%R -> (0 < lambda)%R -> lm_acc im p acc ->
  exists d, lm_delta acc lambda = Ok d /\ length d = 6 /\ exists slope,
    derivable_pt_lim (fun t => misfit w h f (fun i => par p i + t * nth i d 0)%R) 0 slope /\
    (slope <= 0)%R /\ (slope = 0%R -> d = repeat 0%R 6).
Proof.
  intros HR Pw Ph Sx Sy Hr Pl HA; assert (RP := regular_of p Sx Sy Hr).
  apply (acc_iff im w h f HR Pw) in HA; auto; subst acc.
  destruct (stp_ok w h f Pw Ph p lambda Pl) as (E & L); exists (stp w h f p lambda); split; auto; split; auto.
  set (d := stp w h f p lambda) in *.
  exists (-2 * vdot 6 (gra w h f p) (fun k => nth k d 0))%R; split; [|split].
  - apply (derivable_ext (fun t => err w h f (fun i => par p i + t * nth i d 0)%R)); [intros; apply err_misfit|].
    intros eps Pe; set (nd := vnorm 6 (fun k => nth k d 0%R)); assert (Nn : (0 <= nd)%R) by apply vnorm_nonneg.
    assert (P1 : (0 < eps / (2 * (nd + 1)))%R) by (apply Rdiv_lt_0_compat; lra).
    destruct (err_frechet w h f p RP _ P1) as (del & Pd & Hd).
    assert (P2 : (0 < del / (nd + 1))%R) by (apply Rdiv_lt_0_compat; lra).
    exists (mkposreal _ P2); intros t Nt St; cbn [pos] in St.
    assert (VN : vnorm 6 (fun i => t * nth i d 0)%R = (Rabs t * nd)%R).
    { unfold nd, vnorm; rewrite <- rsum_scale; apply rsum_ext; intros; apply Rabs_mult. }
    assert (SM : (Rabs t * nd < del)%R).
    { apply Rle_lt_trans with (Rabs t * (nd + 1))%R; [pose proof (Rabs_pos t); nra|].
      apply (Rmult_lt_compat_r (nd + 1)) in St; [|lra]; unfold Rdiv in St; rewrite Rmult_assoc, Rinv_l, Rmult_1_r in St by lra; auto. }
    specialize (Hd (fun i => t * nth i d 0)%R ltac:(rewrite VN; auto)); rewrite VN in Hd.
    rewrite Rplus_0_l; rewrite (err_ext w h f (fun i => par p i + 0 * nth i d 0)%R (par p)) by (intros; ring).
    replace (vdot 6 (fun k => -2 * gra w h f p k) (fun i => t * nth i d 0))%R with (t * (-2 * vdot 6 (gra w h f p) (fun k => nth k d 0)))%R in Hd
      by (unfold vdot; rewrite <- !rsum_scale; apply rsum_ext; intros; ring).
    set (V := vdot 6 _ _) in *; set (e1 := err w h f (fun i => par p i + t * nth i d 0)%R) in *; set (e0 := err w h f (par p)) in *.
    replace ((e1 - e0) / t - -2 * V)%R with ((e1 - e0 - t * (-2 * V)) * / t)%R by (field; auto).
    rewrite Rabs_mult, Rabs_inv; assert (Pt := Rabs_pos_lt t Nt).
    apply (Rmult_le_compat_r (/ Rabs t)) in Hd; [|left; apply Rinv_0_lt_compat; auto].
    eapply Rle_lt_trans; [exact Hd|].
    replace (eps / (2 * (nd + 1)) * (Rabs t * nd) * / Rabs t)%R with (eps * (nd / (2 * (nd + 1))))%R by (field; lra).
    rewrite <- (Rmult_1_r eps) at 2; apply Rmult_lt_compat_l; auto.
    apply Rmult_lt_reg_r with (2 * (nd + 1))%R; [lra|]; unfold Rdiv; rewrite Rmult_assoc, Rinv_l by lra; lra.
  - pose proof (step_descent w h f Pw Ph p lambda Pl) as D; fold d in D.
    assert ((0 <= lambda * rsum (fun k => up w h f p lambda k * up w h f p lambda k) (seq 0 6))%R); [|lra].
    apply Rmult_le_pos; [lra|]; apply rsum_nonneg; intros; apply Rle_0_sqr.
  - intros Z; pose proof (step_descent w h f Pw Ph p lambda Pl) as D; fold d in D.
    set (Q := rsum (fun k => up w h f p lambda k * up w h f p lambda k)%R (seq 0 6)) in D.
    assert (Q0 : (0 <= Q)%R) by (apply rsum_nonneg; intros; apply Rle_0_sqr).
    assert (Q1 : Q = 0%R) by nra.
    apply nth_ext with (d := 0%R) (d' := 0%R); [rewrite repeat_length; auto|]; intros k Hk; rewrite L in Hk.
    pose proof (squares_zero w h Pw Ph _ _ Q1 k Hk) as U; unfold up in U; fold d in U; pose proof (sc_pos w h p k).
    replace (nth k (repeat 0%R 6) 0%R) with 0%R by (destruct k as [|[|[|[|[|[|k]]]]]]; (reflexivity || lia)).
    apply Rmult_integral in U; destruct U as [U|U]; [lra | exact U].
Qed.
Print Assumptions C110_downhill.

(** the correction solves the normal equations, damped by [lambda] times the square of each parameter's scale; or it is nothing, which happens
    only for a damping below 10^-11 *)
Theorem C110_step im w h f p acc lambda :
  Repr im w h f -> 0 < w -> 0 < h -> (0 < g_sx p)%R -> (0 < g_sy p)%R -> (-1 < g_rho p < 1)%R -> (0 < lambda)%R -> lm_acc im p acc ->
  let H k l := nth l (nth k (a_H acc) []) 0%R in
  let s2 k := if Rlt_dec (sqrt (Rabs (H k k))) (/ 10 ^ 12) then 1%R else Rabs (H k k) in
  exists d, lm_delta acc lambda = Ok d /\ length d = 6 /\
    ((forall k, k < 6 -> (rsum (fun l => H k l * nth l d 0) (seq 0 6) + lambda * s2 k * nth k d 0 = nth k (a_g acc) 0)%R) \/
     (d = repeat 0%R 6 /\ (lambda < / 10 ^ 11)%R)).
Proof.
  intros HR Pw Ph Sx Sy Hr Pl HA; assert (RP := regular_of p Sx Sy Hr).
  apply (acc_iff im w h f HR Pw) in HA; auto; subst acc; cbv zeta.
  destruct (delta_spec w h f Pw Ph p lambda Pl) as (d & E & L & Hd); exists d; split; auto; split; auto.
  assert (HH : forall k l, k < 6 -> l < 6 -> nth l (nth k (a_H (accf w h f p)) []) 0%R = hes w h p k l)
    by (intros k l Hk Hl; unfold accf; cbn [a_H]; rewrite !nth_map_seq by auto; auto).
  cbv zeta in Hd; destruct Hd as [Hd|(Hd & Hl)].
  - left; intros k Hk; specialize (Hd k Hk).
    rewrite (rsum_ext _ (fun l => hes w h p k l * nth l d 0)%R) by (intros l Hi; apply in_seq in Hi; rewrite HH by lia; auto).
    rewrite HH by auto; unfold accf; cbn [a_g]; rewrite nth_map_seq by auto.
    assert (S2 : (if Rlt_dec (sqrt (Rabs (hes w h p k k))) (/ 10 ^ 12) then 1%R else Rabs (hes w h p k k)) = (sc w h p k * sc w h p k)%R).
    { unfold sc, rltb; cbv zeta; destruct (Rlt_dec _ _); [ring | rewrite sqrt_sqrt; auto using Rabs_pos]. }
    rewrite S2; pose proof (sc_pos w h p k) as PS; unfold gs in Hd.
    apply (f_equal (fun t => sc w h p k * t)%R) in Hd; replace (sc w h p k * (gra w h f p k / sc w h p k))%R with (gra w h f p k) in Hd by (field; lra).
    rewrite <- Hd, <- rsum_scale.
    transitivity (rsum (fun l => hes w h p k l * nth l d 0 + (if k =? l then lambda * (sc w h p k * sc w h p k) * nth k d 0 else 0))%R (seq 0 6)).
    { rewrite rsum_add; f_equal; rewrite (rsum_single (fun l => if k =? l then lambda * (sc w h p k * sc w h p k) * nth k d 0 else 0)%R 6 k Hk).
      - rewrite Nat.eqb_refl; auto.
      - intros i _ Ni; rewrite (proj2 (Nat.eqb_neq k i)); auto. }
    apply rsum_ext; intros l _; rewrite <- hes_scaled; pose proof (sc_pos w h p l); destruct (Nat.eqb_spec k l) as [<-|]; field; lra.
  - right; split.
    + apply nth_ext with (d := 0%R) (d' := 0%R); [rewrite repeat_length; auto|]; intros k Hk; rewrite L in Hk; rewrite Hd by auto.
      destruct k as [|[|[|[|[|[|k]]]]]]; (reflexivity || lia).
    + eapply Rle_lt_trans; [exact Hl|]; replace (/ 10 ^ 11)%R with (10 * / 10 ^ 12)%R by (field); pose proof pow12; lra.
Qed.
Print Assumptions C110_step.

(** ** C111 *)
(** pixel (x, y) comes before pixel (x', y') *)
Definition before (x y x' y' : nat) : Prop := y < y' \/ (y = y' /\ x < x').

Theorem C111_result im w h f n tol : Repr im w h f -> 0 < w -> 0 < h ->
  exists p, (forall r, estimate im n tol r <-> r = Ok p) /\
    (/ 10 ^ 6 <= g_sx p)%R /\ (/ 10 ^ 6 <= g_sy p)%R /\ (- (999 / 1000) <= g_rho p <= 999 / 1000)%R.
Proof.
  intros HR Pw Ph; destruct (estimate_iff im w h f HR Pw Ph n tol) as (m & _ & _ & _ & H).
  eexists; split; [exact H|]; apply (lmf_valid w h f); apply guess_valid.
Qed.
Print Assumptions C111_result.

(** without iterations: the brightest pixel (the first of them) and the moments of what is brighter than a tenth of it *)
Definition moment_of (w h : nat) (f : nat -> nat -> R) (limit : R) (W : nat -> nat -> R) : R :=
  rsum (fun y => rsum (fun x => if Rlt_dec limit (f x y) then (W x y * f x y)%R else 0%R) (seq 0 w)) (seq 0 h).
Theorem C111_guess im w h f tol p : Repr im w h f -> 0 < w -> 0 < h -> estimate im 0 tol (Ok p) ->
  exists X Y, X < w /\ Y < h /\ g_amp p = f X Y /\ g_x0 p = INR X /\ g_y0 p = INR Y /\
    (forall x y, x < w -> y < h -> (f x y <= f X Y)%R) /\
    (forall x y, x < w -> before x y X Y -> (f x y < f X Y)%R) /\
    ((0 < f X Y)%R ->
       let M := moment_of w h f (f X Y / 10) in
       let mass := M (fun _ _ => 1%R) in
       let vx := (M (fun x _ => (INR x - INR X) ^ 2)%R / mass)%R in
       let vy := (M (fun _ y => (INR y - INR Y) ^ 2)%R / mass)%R in
       let c := (M (fun x y => (INR x - INR X) * (INR y - INR Y))%R / mass)%R in
       (0 < mass)%R /\ g_sx p = Rmax (/ 10 ^ 6) (sqrt vx) /\ g_sy p = Rmax (/ 10 ^ 6) (sqrt vy) /\
       g_rho p = Rmax (- (99 / 100)) (Rmin (99 / 100) (c / (g_sx p * g_sy p)))) /\
    ((f X Y <= 0)%R -> g_sx p = 10%R /\ g_sy p = 10%R /\ g_rho p = 0%R).
Proof.
  intros HR Pw Ph HE; destruct (estimate_iff im w h f HR Pw Ph 0 tol) as (m & Hm & H1 & H2 & H).
  apply H in HE; injection HE as ->; cbn [lmf].
  assert (MX : m mod w < w) by (apply Nat.mod_upper_bound; lia).
  assert (MY : m / w < h) by (apply Nat.div_lt_upper_bound; lia).
  exists (m mod w), (m / w); split; auto; split; auto.
  assert (IDX : forall x y, x < w -> y < h -> zof w f (y * w + x) = f x y).
  { intros x y Hx Hy; unfold zof; f_equal; [rewrite Nat.add_comm, Nat.mod_add by lia; apply Nat.mod_small; auto|].
    rewrite Nat.div_add_l by lia; rewrite Nat.div_small by auto; lia. }
  set (X := m mod w) in *; set (Y := m / w) in *.
  assert (LE : forall x y, x < w -> y < h -> (f x y <= f X Y)%R).
  { intros x y Hx Hy; rewrite <- (IDX x y) by auto; apply H1; nia. }
  assert (MS : forall W, msum w h f (zof w f m) (fun i => W (i mod w) (i / w)) = moment_of w h f (f X Y / 10) W).
  { intros W; unfold msum, moment_of.
    rewrite <- (rsum_pixels w h (fun x y => if Rlt_dec (f X Y / 10) (f x y) then (W x y * f x y)%R else 0%R)).
    apply rsum_ext; intros i _; fold (zof w f m); fold (zof w f i); unfold rltb.
    replace (zof w f m * (1 / 10))%R with (zof w f m / 10)%R by field; destruct (Rlt_dec _ _); auto. }
  split; [reflexivity|]; split; [reflexivity|]; split; [reflexivity|]; split; [exact LE|]; split.
  { intros x y Hx B; assert (Hy : y < h) by (destruct B; lia); rewrite <- (IDX x y) by auto; apply H2.
    pose proof (Nat.div_mod m w ltac:(lia)) as DM; destruct B as [B|[-> B]]; nia. }
  set (A := f X Y) in *.
  assert (M1 : msum w h f (zof w f m) (fun _ => 1%R) = moment_of w h f (A / 10) (fun _ _ => 1%R)) by apply (MS (fun _ _ => 1%R)).
  assert (MXX : msum w h f (zof w f m) (fun i => (INR (i mod w) - INR X) * (INR (i mod w) - INR X))%R =
    moment_of w h f (A / 10) (fun x _ => (INR x - INR X) ^ 2)%R).
  { rewrite <- (MS (fun x _ => (INR x - INR X) ^ 2)%R); unfold msum; apply rsum_ext; intros i _; destruct (rltb _ _); ring. }
  assert (MYY : msum w h f (zof w f m) (fun i => (INR (i / w) - INR Y) * (INR (i / w) - INR Y))%R =
    moment_of w h f (A / 10) (fun _ y => (INR y - INR Y) ^ 2)%R).
  { rewrite <- (MS (fun _ y => (INR y - INR Y) ^ 2)%R); unfold msum; apply rsum_ext; intros i _; destruct (rltb _ _); ring. }
  assert (MXY : msum w h f (zof w f m) (fun i => (INR (i mod w) - INR X) * (INR (i / w) - INR Y))%R =
    moment_of w h f (A / 10) (fun x y => (INR x - INR X) * (INR y - INR Y))%R)
    by apply (MS (fun x y => (INR x - INR X) * (INR y - INR Y))%R).
  unfold guess; cbv zeta; change (m mod w) with X; change (m / w) with Y; rewrite M1, MXX, MYY, MXY; cbn [g_sx g_sy g_rho]; split.
  - intros PA.
    assert (PM : (0 < moment_of w h f (A / 10) (fun _ _ => 1%R))%R).
    { rewrite <- M1; unfold msum; apply Rlt_le_trans with (zof w f m); [exact PA|].
      apply Rle_trans with (rsum (fun i => if i =? m then zof w f m else 0%R) (seq 0 (w * h))).
      { right; symmetry; rewrite (rsum_single (fun i => if i =? m then zof w f m else 0%R) (w * h) m Hm); [rewrite Nat.eqb_refl; auto|].
           intros i _ Ni; rewrite (proj2 (Nat.eqb_neq i m)); auto. }
      apply rsum_le; intros i Hi; destruct (Nat.eqb_spec i m) as [->|Ni].
      - replace (rltb _ _) with true; [lra|]; symmetry; apply rltb_spec; change (zof w f m) with A; lra.
      - destruct (rltb _ _) eqn:E; [|lra]; apply rltb_spec in E; change (zof w f m) with A in E; lra. }
    rewrite (proj2 (rltb_spec 0 _) PM); split; [auto|]; split; [auto|]; split; auto.
  - intros NA.
    assert (ZM : moment_of w h f (A / 10) (fun _ _ => 1%R) = 0%R).
    { unfold moment_of; apply rsum_zero; intros y Hy; apply rsum_zero; intros x Hx; apply in_seq in Hx, Hy.
      destruct (Rlt_dec _ _) as [L|L]; auto; specialize (LE x y ltac:(lia) ltac:(lia)); lra. }
    rewrite ZM; replace (rltb 0 0) with false by (symmetry; apply rltb_false; lra).
    assert (P6 : (/ 10 ^ 6 <= 10)%R).
    { apply Rle_trans with 1%R; [|lra]; rewrite <- Rinv_1; apply Rinv_le_contravar; [lra|]; apply pow_R1_Rle; lra. }
    rewrite Rmax_right by auto; split; auto; split; auto; rewrite Rmin_right, Rmax_right; lra.
Qed.
Print Assumptions C111_guess.

(** more iterations never fit worse *)
Theorem C111_improves im w h f tol n m p q : Repr im w h f -> 0 < w -> 0 < h -> n <= m ->
  estimate im n tol (Ok p) -> estimate im m tol (Ok q) -> (misfit w h f (par q) <= misfit w h f (par p))%R.
Proof.
  intros HR Pw Ph Hnm Hp Hq; rewrite <- !err_misfit.
  destruct (guess_iff im w h f HR Pw Ph) as (g & _ & _ & _ & Hg).
  assert (EQ : forall n r, estimate im n tol r -> r = Ok (lmf w h f tol n (guess w h f g) (1 / 100)%R)).
  { intros k r; unfold estimate, get_dimensionality; rewrite (proj1 HR); cbn [length Nat.eqb negb]; intros (r' & Hr' & HE).
    apply Hg in Hr'; subst r'; apply (loop_iff im w h f HR Pw) in HE; auto using guess_valid; lra. }
  apply EQ in Hp, Hq; injection Hp as ->; injection Hq as ->.
  induction Hnm as [|m Hm IH]; [lra|]; eapply Rle_trans; [apply lmf_mono | exact IH].
Qed.
Print Assumptions C111_improves.

(** other pictures *)
Theorem C111_errors (im : image R) n tol r :
  (length (dims im) <> 2 -> (estimate im n tol r <-> r = Throw InvalidArgument)) /\
  (forall w h, dims im = [w; h] -> w = 0 \/ h = 0 -> (estimate im n tol r <-> r = UB)).
Proof.
  split.
  - intros N; unfold estimate, get_dimensionality; rewrite (proj2 (Nat.eqb_neq _ _) N); reflexivity.
  - intros w h D Z; unfold estimate, get_dimensionality; rewrite D; cbn [length Nat.eqb negb].
    assert (FG : forall g, first_guess im g <-> g = UB).
    { intros g; unfold first_guess, brightest, count; rewrite D; replace (prodn [w; h] =? 0) with true; [reflexivity|].
      symmetry; apply Nat.eqb_eq; rewrite prodn2; destruct Z; subst; lia. }
    split; [intros (g & Hg & H); apply FG in Hg; subst; auto | intros ->; exists UB; split; [apply FG; auto | auto]].
Qed.
Print Assumptions C111_errors.

(** ** C112 *)
Lemma partial_gra w h f p k d : regular p -> k < 6 -> partial_at (misfit w h f) (par p) k d -> d = (-2 * gra w h f p k)%R.
Proof. intros RP Hk H; eapply uniqueness_limite; [exact H | apply misfit_partial; auto]. Qed.
Lemma estimate_lmf im w h f tol : Repr im w h f -> 0 < w -> 0 < h -> exists m, m < w * h /\
  (forall i, i < w * h -> (zof w f i <= zof w f m)%R) /\ (forall i, i < m -> (zof w f i < zof w f m)%R) /\
  forall n r, estimate im n tol r <-> r = Ok (lmf w h f tol n (guess w h f m) (1 / 100)%R).
Proof.
  intros HR Pw Ph; destruct (guess_iff im w h f HR Pw Ph) as (g & G1 & G2 & G3 & Hg); exists g; split; auto; split; auto; split; auto.
  intros n r; unfold estimate, get_dimensionality; rewrite (proj1 HR); cbn [length Nat.eqb negb]; split.
  - intros (r' & Hr' & HE); apply Hg in Hr'; subst r'; apply (loop_iff im w h f HR Pw) in HE; auto using guess_valid; lra.
  - intros E; exists (Ok (guess w h f g)); split; [apply Hg; auto|]; apply (loop_iff im w h f HR Pw); auto using guess_valid; lra.
Qed.

(** a point where every derivative of the misfit vanishes is kept by all further iterations *)
Theorem C112_stationary_kept im w h f tol n m p : Repr im w h f -> 0 < w -> 0 < h -> n <= m -> estimate im n tol (Ok p) ->
  (forall k, k < 6 -> partial_at (misfit w h f) (par p) k 0) -> estimate im m tol (Ok p).
Proof.
  intros HR Pw Ph Hnm HE HD; destruct (estimate_lmf im w h f tol HR Pw Ph) as (g & _ & _ & _ & H).
  apply H in HE; injection HE as EP; apply H; f_equal.
  assert (V : valid p) by (rewrite EP; apply lmf_valid, guess_valid).
  assert (G : forall i, i < 6 -> gra w h f p i = 0%R).
  { intros i Hi; pose proof (partial_gra w h f p i 0 (valid_regular _ V) Hi (HD i Hi)); lra. }
  replace m with (n + (m - n)) by lia.
  destruct (lmf_add w h f tol n (guess w h f g) (1 / 100) ltac:(lra)) as [(lam' & Pl & A)|(_ & A)]; rewrite A, <- EP; auto.
  rewrite (lmf_flat w h f Pw Ph tol (m - n) p lam' V Pl G); auto.
Qed.
Print Assumptions C112_stationary_kept.

(** so is a perfect fit *)
Theorem C112_perfect_kept im w h f tol n m p : Repr im w h f -> 0 < w -> 0 < h -> n <= m -> estimate im n tol (Ok p) ->
  (forall x y, x < w -> y < h -> f x y = hump (par p) (INR x) (INR y)) -> estimate im m tol (Ok p).
Proof.
  intros HR Pw Ph Hnm HE HP; apply (C112_stationary_kept im w h f tol n m p HR Pw Ph Hnm HE); intros k Hk.
  destruct (C111_result im w h f n tol HR Pw Ph) as (p' & Hp' & S1 & S2 & S3); pose proof (proj1 (Hp' _) HE) as E; injection E as <-.
  assert (RP : regular p) by (apply valid_regular; repeat split; tauto).
  replace 0%R with (-2 * gra w h f p k)%R; [apply misfit_partial; auto|].
  replace (gra w h f p k) with 0%R; [ring|]; symmetry; unfold gra; apply rsum_zero; intros i Hi; apply in_seq in Hi.
  assert (resid w f p i = 0%R) as ->; [|ring]; unfold resid, zof, xof, yof; rewrite HP; [ring | apply Nat.mod_upper_bound; lia|].
  apply Nat.div_lt_upper_bound; lia.
Qed.
Print Assumptions C112_perfect_kept.

(** with a tolerance of 0 or less, away from the bounds of the parameters, the fit keeps improving until it is stationary *)
Theorem C112_progress im w h f tol n p k d : Repr im w h f -> 0 < w -> 0 < h -> (tol <= 0)%R -> estimate im n tol (Ok p) ->
  (/ 10 ^ 6 < g_sx p)%R -> (/ 10 ^ 6 < g_sy p)%R -> (- (999 / 1000) < g_rho p < 999 / 1000)%R ->
  k < 6 -> partial_at (misfit w h f) (par p) k d -> d <> 0%R ->
  exists m q, n < m /\ estimate im m tol (Ok q) /\ (misfit w h f (par q) < misfit w h f (par p))%R.
Proof.
  intros HR Pw Ph Ht HE S1 S2 S3 Hk HD Nd; destruct (estimate_lmf im w h f tol HR Pw Ph) as (g & _ & _ & _ & H).
  apply H in HE; injection HE as EP.
  assert (IN : inside p) by (repeat split; tauto).
  destruct (lmf_add w h f tol n (guess w h f g) (1 / 100) ltac:(lra)) as [(lam' & Pl & A)|(P & _)]; [|lra].
  destruct (lmf_progress w h f Pw Ph tol p Ht IN) with (lam := lam') as (j & Hj); auto.
  { exists k; split; auto; intros Z; apply Nd; rewrite (partial_gra w h f p k d); auto using valid_regular, inside_valid; rewrite Z; ring. }
  exists (n + j), (lmf w h f tol j p lam'); split; [|split].
  - destruct j; [cbn [lmf] in Hj; lra | lia].
  - apply H; rewrite A, <- EP; auto.
  - rewrite <- !err_misfit; auto.
Qed.
Print Assumptions C112_progress.

(** with a positive tolerance, however small, there are pictures where it stops at once although the fit could be improved *)
Definition faint (e : R) : image R := mkImage [2; 1] [0%R; (- e)%R].
Definition faintf (e : R) : nat -> nat -> R := fun x _ => if x =? 0 then 0%R else (- e)%R.
Lemma faint_Repr e : Repr (faint e) 2 1 (faintf e).
Proof. repeat split; intros x y Hx Hy; destruct y as [|y]; [|lia]; destruct x as [|[|x]]; [reflexivity | reflexivity | lia]. Qed.
Definition faintp : gparams := mkGP 0 0 0 10 10 0.
Lemma faint_guess e g : (0 < e)%R -> g < 2 * 1 -> (forall i, i < 2 * 1 -> (zof 2 (faintf e) i <= zof 2 (faintf e) g)%R) ->
  guess 2 1 (faintf e) g = faintp.
Proof.
  intros Pe Hg H; assert (g = 0) as ->.
  { specialize (H 0 ltac:(lia)); destruct g as [|[|g]]; [auto | cbn in H; lra | lia]. }
  assert (M : forall W, msum 2 1 (faintf e) (zof 2 (faintf e) 0) W = 0%R).
  { intros W; unfold msum; apply rsum_zero; intros i Hi; apply in_seq in Hi.
    destruct i as [|[|i]]; [| |lia].
    - replace (rltb _ _) with false; auto; symmetry; apply rltb_false; cbn; lra.
    - replace (rltb _ _) with false; auto; symmetry; apply rltb_false; cbn; lra. }
  unfold guess; cbv zeta; rewrite !M; replace (rltb 0 0) with false by (symmetry; apply rltb_false; lra).
  assert (P6 : (/ 10 ^ 6 <= 10)%R).
  { apply Rle_trans with 1%R; [|lra]; rewrite <- Rinv_1; apply Rinv_le_contravar; [lra|]; apply pow_R1_Rle; lra. }
  rewrite Rmax_right by auto; rewrite Rmin_right, Rmax_right by lra; reflexivity.
Qed.
Lemma faint_jac i k : 1 <= k -> jc 2 faintp i k = 0%R.
Proof.
  intros Hk; unfold jc, jac, faintp; cbn [g_amp g_x0 g_y0 g_sx g_sy g_rho]; cbv zeta.
  destruct k as [|[|[|[|[|[|[|k]]]]]]]; [lia|..]; cbn [nth]; unfold Rdiv; ring.
Qed.
Theorem C112_tolerance_refuted : forall tol, (0 < tol)%R -> exists im w h f p d, Repr im w h f /\ 0 < w /\ 0 < h /\
  (forall n, estimate im n tol (Ok p)) /\ (1 <= g_sx p)%R /\ (1 <= g_sy p)%R /\ g_rho p = 0%R /\
  partial_at (misfit w h f) (par p) 0 d /\ d <> 0%R.
Proof.
  intros tol Pt; set (e := (Rmin 1 tol / 2)%R).
  assert (E1 : (0 < e /\ e <= 1 / 2 /\ e < tol)%R) by (unfold e, Rmin; destruct (Rle_dec 1 tol); lra).
  destruct E1 as (Pe & E1 & E2).
  pose proof (faint_Repr e) as HR.
  exists (faint e), 2, 1, (faintf e), faintp, (-2 * gra 2 1 (faintf e) faintp 0)%R.
  assert (RP : regular faintp) by (repeat split; cbn; lra).
  set (x1 := exp (- (1 / 2) * (1 / (1 - 0 * 0)) * ((1 - 0) * (1 - 0) / (10 * 10) - 2 * 0 * (1 - 0) * (0 - 0) / (10 * 10) + (0 - 0) * (0 - 0) / (10 * 10)))).
  assert (X1 : (0 < x1)%R) by apply exp_pos.
  assert (J0 : jc 2 faintp 0 0 = 1%R).
  { unfold jc, jac, faintp; cbn [g_amp g_x0 g_y0 g_sx g_sy g_rho]; cbv zeta; cbn [nth]; unfold xof, yof; change (0 mod 2) with 0; change (0 / 2) with 0.
    cbn [INR]; replace (- (1 / 2) * _ * _)%R with 0%R by field; apply exp_0. }
  assert (J1 : jc 2 faintp 1 0 = x1) by reflexivity.
  assert (G0 : gra 2 1 (faintf e) faintp 0 = (- (x1 * e))%R).
  { unfold gra; cbn [Nat.mul Nat.add seq]; rewrite !rsum_cons, rsum_nil, J0, J1; unfold resid, zof, faintf.
    change (0 mod 2 =? 0) with true; change (1 mod 2 =? 0) with false; cbv iota.
    unfold hump, par, faintp; cbn [nth g_amp]; ring. }
  split; [auto|]; split; [lia|]; split; [lia|]; split.
  - destruct (estimate_lmf (faint e) 2 1 (faintf e) tol HR ltac:(lia) ltac:(lia)) as (g & Hg & G1 & _ & H).
    rewrite (faint_guess e g Pe Hg G1) in H; intros n; apply H; f_equal.
    destruct n as [|n]; [reflexivity|]; cbn [lmf]; cbv zeta.
    replace (rltb _ tol) with true; [reflexivity|]; symmetry; apply rltb_spec.
    destruct (C110_step (faint e) 2 1 (faintf e) faintp (accf 2 1 (faintf e) faintp) (1 / 100) HR ltac:(lia) ltac:(lia)) as (d & Ed & Ld & Hd);
      try (cbn; lra).
    { apply (acc_iff (faint e) 2 1 (faintf e) HR ltac:(lia)); auto. }
    unfold stp; rewrite Ed; cbv zeta in Hd.
    destruct Hd as [Hd|(-> & L)].
    2: { exfalso; assert ((/ 10 ^ 11 <= / 100)%R); [|lra]; apply Rinv_le_contravar; [lra|]; simpl; lra. }
    assert (HH : forall k l, k < 6 -> l < 6 -> nth l (nth k (a_H (accf 2 1 (faintf e) faintp)) []) 0%R = hes 2 1 faintp k l)
      by (intros k l Hk Hl; unfold accf; cbn [a_H]; rewrite !nth_map_seq by auto; auto).
    assert (HZ : forall k l, 1 <= k \/ 1 <= l -> hes 2 1 faintp k l = 0%R).
    { intros k l HO; unfold hes; apply rsum_zero; intros i _; destruct HO; [rewrite (faint_jac i k) by auto | rewrite (faint_jac i l) by auto]; ring. }
    assert (GZ : forall k, 1 <= k -> gra 2 1 (faintf e) faintp k = 0%R).
    { intros k Hk; unfold gra; apply rsum_zero; intros i _; rewrite faint_jac by auto; ring. }
    assert (DK : forall k, 1 <= k < 6 -> nth k d 0%R = 0%R).
    { intros k Hk; specialize (Hd k ltac:(lia)); rewrite (rsum_zero _ (seq 0 6)) in Hd.
      2: { intros l Hl; apply in_seq in Hl; rewrite HH, HZ by lia; ring. }
      rewrite HH, HZ, Rabs_R0, sqrt_0 in Hd by lia; destruct (Rlt_dec 0 (/ 10 ^ 12)) as [_|N]; [|destruct N; apply pow12].
      unfold accf in Hd; cbn [a_g] in Hd; rewrite nth_map_seq, GZ in Hd by lia; lra. }
    assert (H00 : hes 2 1 faintp 0 0 = (1 + x1 * x1)%R).
    { unfold hes; cbn [Nat.mul Nat.add seq]; rewrite !rsum_cons, rsum_nil, J0, J1; ring. }
    assert (D0 : ((1 + x1 * x1) * (1 + 1 / 100) * nth 0 d 0 = - (x1 * e))%R).
    { specialize (Hd 0 ltac:(lia)); cbn [seq] in Hd; rewrite !rsum_cons, rsum_nil in Hd; rewrite !HH in Hd by lia.
      rewrite (HZ 0 1), (HZ 0 2), (HZ 0 3), (HZ 0 4), (HZ 0 5) in Hd by lia; rewrite H00 in Hd; unfold accf in Hd; cbn [a_g] in Hd; rewrite nth_map_seq, G0 in Hd by lia.
      assert (Q0 : (0 < x1 * x1)%R) by (apply Rmult_lt_0_compat; auto).
      rewrite (Rabs_right (1 + x1 * x1)) in Hd by (apply Rle_ge; lra).
      destruct (Rlt_dec _ _) as [L|_]; [|lra].
      exfalso; assert (Q : (1 <= sqrt (1 + x1 * x1))%R) by (rewrite <- sqrt_1 at 1; apply sqrt_le_1_alt; lra).
      assert ((/ 10 ^ 12 <= 1)%R); [|lra]; rewrite <- Rinv_1; apply Rinv_le_contravar; [lra|]; apply pow_R1_Rle; lra. }
    assert (SQ : squared_size d = (nth 0 d 0 * nth 0 d 0)%R).
    { destruct d as [|d0 [|d1 [|d2 [|d3 [|d4 [|d5 [|]]]]]]]; try discriminate Ld.
      pose proof (DK 1 ltac:(lia)); pose proof (DK 2 ltac:(lia)); pose proof (DK 3 ltac:(lia)); pose proof (DK 4 ltac:(lia)); pose proof (DK 5 ltac:(lia)).
      cbn [nth] in *; subst; unfold squared_size; cbn; ring. }
    rewrite SQ; set (z := nth 0 d 0%R) in *.
    assert (Rabs z <= e)%R.
    { clearbody z x1; set (K := ((1 + x1 * x1) * (1 + 1 / 100))%R) in D0.
      assert (KX : (x1 <= K)%R) by (unfold K; pose proof (Rle_0_sqr (x1 - 1 / 2)); unfold Rsqr in *; nra).
      assert (XE : (0 < x1 * e)%R) by (apply Rmult_lt_0_compat; auto); clearbody K.
      apply Rabs_le; split.
      - apply Rnot_lt_le; intros L; apply (Rmult_lt_compat_l K) in L; [|lra]; assert (x1 * e <= K * e)%R by (apply Rmult_le_compat_r; lra); lra.
      - apply Rnot_lt_le; intros L; assert (0 < K * z)%R by (apply Rmult_lt_0_compat; lra); lra. }
    assert (z * z <= e * e)%R.
    { apply Rsqr_le_abs_1; rewrite (Rabs_right e) by lra; auto. }
    nra.
  - cbn [g_sx g_sy g_rho faintp]; split; [lra|]; split; [lra|]; split; [reflexivity|]; split; [apply misfit_partial; auto; lia|].
    rewrite G0; nra.
Qed.
Print Assumptions C112_tolerance_refuted.

(** ** C113 *)
(** the Gaussian drawn is the one of the parameters with amplitude [factor / (2 pi sx sy sqrt (1 - rho^2))] *)
Theorem C113_drawn s xs ys p factor : sched1_ok s -> (0 < g_sx p)%R -> (0 < g_sy p)%R -> (-1 < g_rho p < 1)%R ->
  exists o, figure_of s xs ys p factor = Ok o /\
    Repr o xs ys (fun x y => hump (vary (par p) 0 (factor / (2 * PI * g_sx p * g_sy p * sqrt (1 - g_rho p ^ 2)))) (INR x) (INR y)).
Proof.
  intros Hs Sx Sy Hr; destruct (figure_of_Repr s xs ys p factor Hs) as (o & E & HO); exists o; split; auto.
  eapply Repr_ext; [exact HO|]; intros x y _ _; cbv beta; unfold hump, vary, par; cbn [Nat.eqb nth]; cbv zeta; f_equal; f_equal.
  field; repeat split; nra.
Qed.
Print Assumptions C113_drawn.

(** a fit is drawn again, with the right factor: the picture then differs from the fitted one by the misfit *)
Theorem C113_fit_drawn im w h f n tol p s : Repr im w h f -> 0 < w -> 0 < h -> sched1_ok s -> estimate im n tol (Ok p) ->
  exists o F, figure_of s w h p (g_amp p * (2 * PI * g_sx p * g_sy p * sqrt (1 - g_rho p ^ 2))) = Ok o /\ Repr o w h F /\
    (forall x y, F x y = hump (par p) (INR x) (INR y)) /\
    rsum (fun y => rsum (fun x => (f x y - F x y) ^ 2)%R (seq 0 w)) (seq 0 h) = misfit w h f (par p).
Proof.
  intros HR Pw Ph Hs HE; destruct (C111_result im w h f n tol HR Pw Ph) as (p' & Hp' & S1 & S2 & S3).
  pose proof (proj1 (Hp' _) HE) as E; injection E as <-; pose proof pow6.
  assert (Px : (0 < g_sx p)%R) by lra; assert (Py : (0 < g_sy p)%R) by lra; assert (Pr : (-1 < g_rho p < 1)%R) by lra.
  destruct (C113_drawn s w h p (g_amp p * (2 * PI * g_sx p * g_sy p * sqrt (1 - g_rho p ^ 2))) Hs Px Py Pr) as (o & Eo & HO).
  exists o, (fun x y => hump (par p) (INR x) (INR y)); split; auto; split; [|split; reflexivity].
  eapply Repr_ext; [exact HO|]; intros x y _ _; cbv beta; apply hump_ext; intros i _; unfold vary; destruct (Nat.eqb_spec i 0) as [->|]; auto.
  unfold par; cbn [nth]; assert (0 < sqrt (1 - g_rho p ^ 2))%R by (apply sqrt_lt_R0; nra); pose proof PI_RGT_0; field; repeat split; lra.
Qed.
Print Assumptions C113_fit_drawn.

(** the amplitude is not drawn *)
Theorem C113_refuted : exists p, (0 < g_sx p)%R /\ (0 < g_sy p)%R /\ g_rho p = 0%R /\ forall s o F, sched1_ok s ->
  figure_of s 1 1 p 1 = Ok o -> Repr o 1 1 F -> F 0 0 <> hump (par p) (INR 0) (INR 0).
Proof.
  exists (mkGP 1 0 0 1 1 0); cbn [g_sx g_sy g_rho]; split; [lra|]; split; [lra|]; split; [auto|]; intros s o F Hs E HF.
  destruct (C113_drawn s 1 1 (mkGP 1 0 0 1 1 0) 1 Hs) as (o' & E' & HO); try (cbn; lra).
  rewrite E in E'; injection E' as <-.
  assert (V : F 0 0 = hump (vary (par (mkGP 1 0 0 1 1 0)) 0 (1 / (2 * PI * 1 * 1 * sqrt (1 - 0 ^ 2)))) (INR 0) (INR 0)).
  { destruct HF as (_ & _ & HF); destruct HO as (_ & _ & HO).
    specialize (HF 0 0 ltac:(lia) ltac:(lia)); specialize (HO 0 0 ltac:(lia) ltac:(lia)); rewrite HF in HO; injection HO as HO; exact HO. }
  rewrite V; unfold hump, vary, par; cbn [Nat.eqb nth g_amp g_x0 g_y0 g_sx g_sy g_rho]; cbv zeta; intros Q.
  apply Rmult_eq_reg_r in Q; [|apply Rgt_not_eq, exp_pos].
  replace (1 - 0 ^ 2)%R with 1%R in Q by ring; rewrite sqrt_1 in Q.
  pose proof PI2_1 as HP.
  assert (1 < 2 * PI * 1 * 1 * 1)%R by lra.
  apply (f_equal (fun t => t * (2 * PI * 1 * 1 * 1))%R) in Q; unfold Rdiv in Q; rewrite Rmult_assoc, Rinv_l in Q by lra; lra.
Qed.
Print Assumptions C113_refuted.

(** ** C114 *)
Theorem C114_figure3d xs ys zs cx cy cz sx sy sz : 0 < xs -> 0 < ys -> sx <> 0%R -> sy <> 0%R -> sz <> 0%R ->
  exists o F, gaussian_figure3d xs ys zs cx cy cz sx sy sz = Ok o /\ ReprN o [xs; ys; zs] F /\ forall x y z,
    F [x; y; z] = (gauss sx (INR x - INR cx) * gauss sy (INR y - INR cy) * gauss sz (INR z - INR cz))%R /\
    (0 < F [x; y; z] <= 1)%R /\ (F [x; y; z] = 1%R <-> x = cx /\ y = cy /\ z = cz).
Proof.
  intros Px Py Nx Ny Nz; destruct (figure3d_ReprN xs ys zs cx cy cz sx sy sz Px Py) as (o & E & HO).
  eexists _, _; split; [exact E|]; split; [exact HO|]; intros x y z; unfold c0, c1, c2; cbn [nth].
  rewrite !bell_is_gauss.
  assert (GR : forall s a b, s <> 0%R -> (0 < gauss s (INR a - INR b) <= 1)%R /\ (gauss s (INR a - INR b) = 1%R <-> a = b)).
  { intros s a b Ns; unfold gauss; set (t := (INR a - INR b)%R).
    assert (SS : (0 < 2 * (s * s))%R) by (pose proof (Rsqr_pos_lt s Ns); unfold Rsqr in *; lra).
    assert (TT : (0 <= t * t)%R) by apply Rle_0_sqr.
    split; [split; [apply exp_pos|]|].
    - rewrite <- exp_0; destruct (Req_dec t 0) as [Z|Z]; [right; f_equal; rewrite Z; unfold Rdiv; ring|].
      left; apply exp_increasing; pose proof (Rsqr_pos_lt t Z); unfold Rsqr in *; unfold Rdiv; rewrite Ropp_mult_distr_l_reverse.
      apply Ropp_lt_gt_0_contravar, Rmult_lt_0_compat; auto; apply Rinv_0_lt_compat; auto.
    - split; [intros Q|intros ->].
      + rewrite <- exp_0 in Q; apply exp_inv in Q; apply INR_eq.
        assert (Z : (t * t = 0)%R) by (apply (f_equal (fun u => u * (2 * (s * s)))%R) in Q; unfold Rdiv in Q; rewrite Rmult_assoc, Rinv_l in Q by lra; lra).
        apply Rsqr_0_uniq in Z; unfold t in Z; lra.
      + unfold t; replace (INR b - INR b)%R with 0%R by ring; rewrite <- exp_0; f_equal; unfold Rdiv; ring. }
  destruct (GR sx x cx Nx) as (A1 & A2), (GR sy y cy Ny) as (B1 & B2), (GR sz z cz Nz) as (C1 & C2).
  set (a := gauss sx _) in *; set (b := gauss sy _) in *; set (c := gauss sz _) in *; clearbody a b c.
  assert (AB : (0 < a * b <= 1)%R) by (split; [apply Rmult_lt_0_compat; lra | nra]).
  assert (ABC : (0 < a * b * c <= 1)%R) by (split; [apply Rmult_lt_0_compat; lra | nra]).
  split; [reflexivity|]; split; [exact ABC|]; split.
  - intros Q; assert (c = 1%R) by nra; assert ((a * b)%R = 1%R) by nra; assert (a = 1%R) by nra; assert (b = 1%R) by nra; tauto.
  - intros (E1 & E2 & E3); apply A2 in E1; apply B2 in E2; apply C2 in E3; rewrite E1, E2, E3; ring.
Qed.
Print Assumptions C114_figure3d.

(** ** cases *)
(** a dark picture with one darker pixel: nothing is brighter than a tenth of the brightest, the default spread is taken; the fit is
    not stationary, so without a tolerance it improves *)
Example C112_case : let f := faintf 1 in
  exists p m q, Repr (faint 1) 2 1 f /\ estimate (faint 1) 0 0 (Ok p) /\ g_sx p = 10%R /\
    estimate (faint 1) m 0 (Ok q) /\ (misfit 2 1 f (par q) < misfit 2 1 f (par p))%R.
Proof.
  cbv zeta; pose proof (faint_Repr 1) as HR.
  destruct (estimate_lmf (faint 1) 2 1 (faintf 1) 0 HR ltac:(lia) ltac:(lia)) as (g & Hg & G1 & _ & H).
  rewrite (faint_guess 1 g ltac:(lra) Hg G1) in H.
  assert (E0 : estimate (faint 1) 0 0 (Ok faintp)) by (apply H; reflexivity).
  assert (RP : regular faintp) by (repeat split; cbn; lra).
  assert (P6 : (/ 10 ^ 6 < 10)%R).
  { apply Rle_lt_trans with 1%R; [|lra]; rewrite <- Rinv_1; apply Rinv_le_contravar; [lra|]; apply pow_R1_Rle; lra. }
  destruct (C112_progress (faint 1) 2 1 (faintf 1) 0 0 faintp 0 (-2 * gra 2 1 (faintf 1) faintp 0)%R HR) as (m & q & _ & Eq & L); auto;
    try (cbn; lra); try lia.
  - apply misfit_partial; auto; lia.
  - unfold gra; cbn [Nat.mul Nat.add seq]; rewrite !rsum_cons, rsum_nil; unfold resid, zof, faintf.
    change (0 mod 2 =? 0) with true; change (1 mod 2 =? 0) with false; cbv iota.
    assert (X : (0 < jc 2 faintp 1 0)%R) by apply exp_pos; set (x1 := jc 2 faintp 1 0) in *; clearbody x1.
    unfold hump, par, faintp; cbn [nth g_amp]; rewrite !Rmult_0_l; lra.
  - exists faintp, m, q; auto.
Qed.
(** a bright pixel beside a darker one: the guess before the first iteration *)
Example C111_case : exists p, estimate (mkImage [2; 1] [2%R; 1%R]) 0 0 (Ok p) /\ g_amp p = 2%R /\ g_x0 p = 0%R /\ g_y0 p = 0%R /\
  g_sx p = sqrt (1 / 3) /\ g_sy p = (/ 10 ^ 6)%R /\ g_rho p = 0%R.
Proof.
  assert (HR : Repr (mkImage [2; 1] [2%R; 1%R]) 2 1 (fun x _ => if x =? 0 then 2%R else 1%R)).
  { repeat split; intros x y Hx Hy; destruct y as [|y]; [|lia]; destruct x as [|[|x]]; [reflexivity | reflexivity | lia]. }
  destruct (C111_result _ _ _ _ 0 0%R HR ltac:(lia) ltac:(lia)) as (p & Hp & _).
  assert (E : estimate (mkImage [2; 1] [2%R; 1%R]) 0 0 (Ok p)) by (apply Hp; auto); exists p; split; auto.
  destruct (C111_guess _ _ _ _ 0%R p HR ltac:(lia) ltac:(lia) E) as (X & Y & HX & HY & A & B & C & MX & FX & P & _).
  assert (Y = 0) as -> by lia; assert (X = 0) as ->.
  { destruct X as [|[|X]]; [auto | specialize (MX 0 0 ltac:(lia) ltac:(lia)); cbn in MX; lra | lia]. }
  cbn [Nat.eqb INR] in *; specialize (P ltac:(lra)); cbv zeta in P.
  assert (MO : forall W, moment_of 2 1 (fun x _ => if x =? 0 then 2%R else 1%R) (2 / 10) W = (2 * W O O + W 1%nat O)%R).
  { intros W; unfold moment_of; cbn [seq]; rewrite !rsum_cons, !rsum_nil; cbn [Nat.eqb].
    destruct (Rlt_dec (2 / 10) 2); [|lra]; destruct (Rlt_dec (2 / 10) 1); [|lra]; ring. }
  rewrite !MO in P; cbn [INR] in P; destruct P as (_ & P1 & P2 & P3).
  replace ((2 * (0 - 0) ^ 2 + (1 - 0) ^ 2) / (2 * 1 + 1))%R with (1 / 3)%R in P1 by field.
  replace ((2 * (0 - 0) ^ 2 + (0 - 0) ^ 2) / (2 * 1 + 1))%R with 0%R in P2 by field; rewrite sqrt_0 in P2.
  replace ((2 * ((0 - 0) * (0 - 0)) + (1 - 0) * (0 - 0)) / (2 * 1 + 1))%R with 0%R in P3 by field.
  rewrite Rmax_left in P2 by (pose proof pow6; lra).
  rewrite Rmax_right in P1.
  2: { rewrite <- (sqrt_square (/ 10 ^ 6)) by (pose proof pow6; lra); apply sqrt_le_1_alt.
       apply Rle_trans with (1 / 10 * (1 / 10))%R; [|lra].
       assert (/ 10 ^ 6 <= 1 / 10)%R by (unfold Rdiv; rewrite Rmult_1_l; apply Rinv_le_contravar; [lra | simpl; lra]).
       pose proof pow6; apply Rmult_le_compat; lra. }
  replace (0 / (g_sx p * g_sy p))%R with 0%R in P3 by (unfold Rdiv; ring); rewrite Rmin_right, Rmax_right in P3 by lra.
  do 4 (split; auto).
Qed.
(** a single pixel is fitted perfectly from the start, and stays so *)
Example C112_perfect_case n : exists p, estimate (mkImage [1; 1] [5%R]) n (1 / 1000) (Ok p) /\ misfit 1 1 (fun _ _ => 5%R) (par p) = 0%R.
Proof.
  assert (HR : Repr (mkImage [1; 1] [5%R]) 1 1 (fun _ _ => 5%R)).
  { repeat split; intros x y Hx Hy; destruct y as [|y]; [|lia]; destruct x as [|x]; [reflexivity | lia]. }
  destruct (C111_result _ _ _ _ 0 (1 / 1000)%R HR ltac:(lia) ltac:(lia)) as (p & Hp & _).
  assert (E : estimate (mkImage [1; 1] [5%R]) 0 (1 / 1000) (Ok p)) by (apply Hp; auto).
  destruct (C111_guess _ _ _ _ _ p HR ltac:(lia) ltac:(lia) E) as (X & Y & HX & HY & A & B & C & _).
  assert (X = 0) as -> by lia; assert (Y = 0) as -> by lia.
  assert (HU : forall x y, x < 1 -> y < 1 -> 5%R = hump (par p) (INR x) (INR y)).
  { intros x y Hx Hy; assert (x = 0) as -> by lia; assert (y = 0) as -> by lia; unfold hump, par; cbn [nth]; rewrite A, B, C; cbn [INR].
    rewrite Rminus_0_r; unfold Rdiv; rewrite !Rmult_0_l, !Rmult_0_r; replace (0 - 0 + 0)%R with 0%R by ring; rewrite Ropp_0, Rmult_0_l, exp_0; ring. }
  exists p; split; [apply (C112_perfect_kept _ 1 1 _ _ 0 n p HR); auto; lia|].
  unfold misfit; cbn [seq]; rewrite !rsum_cons, !rsum_nil; rewrite <- (HU 0 0) by lia; ring.
Qed.
Example C113_case : exists o, figure_of (seq 0) 3 2 (mkGP 4 1 0 2 3 (1 / 2)) 1 = Ok o /\ dims o = [3; 2].
Proof.
  destruct (C113_drawn (seq 0) 3 2 (mkGP 4 1 0 2 3 (1 / 2)) 1) as (o & E & HO); try (cbn; lra); [intros n; apply Permutation.Permutation_refl|].
  exists o; split; [exact E | apply HO].
Qed.
Example C114_case : exists o, gaussian_figure3d 2 2 3 1 0 2 1 1 1 = Ok o /\ dims o = [2; 2; 3] /\ length (pix o) = 12.
Proof.
  destruct (C114_figure3d 2 2 3 1 0 2 1 1 1) as (o & F & E & HO & _); try lia; try lra.
  exists o; split; [exact E|]; destruct HO as (D & L & _); split; [exact D | rewrite L; reflexivity].
Qed.
