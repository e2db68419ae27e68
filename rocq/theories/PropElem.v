(** PropElem.v - properties C151 to C154: functions of one element, complex pictures, differences and colour distances *)
From Coq Require Import Reals Lra Psatz Permutation Lia.
From Verif Require Import Base ImageModel ImageFacts ImageProofs PixelModel PixelProofs HistModel HistProofs ReduceModel ReduceProofs CommandProofs ArithModel ArithProofs ElemModel ElemProofs.
Open Scope nat_scope.

(** ** C151  the functions act on every channel of every pixel alone, and the two ways agree *)
Theorem C151_channels pol f p : pol_ok pol ->
  exists o, channelwise pol f p = Ok o /\ length o = length p
    /\ forall k x, nth_error p k = Some x -> nth_error o k = Some (match x with Some r => scalar f r | None => None end).
Proof.
  intros H; rewrite channelwise_ok by exact H; eexists; split; [reflexivity|]; split; [apply map_length|].
  intros k x Hx; rewrite nth_error_map, Hx; reflexivity.
Qed.
Print Assumptions C151_channels.
(** a policy with any order of the channels gives what the loop gives *)
Theorem C151_policy sc f p : sched1_ok sc -> channelwise (Some sc) f p = channelwise None f p.
Proof. intros H; rewrite !channelwise_ok by (exact H || exact I); reflexivity. Qed.
Print Assumptions C151_policy.
Theorem C151_image f im : wf im -> pix im <> [] ->
  exists o, image_fn f im = Ok o /\ wf o /\ dims o = dims im
    /\ forall i x, nth_error (pix im) i = Some x -> channelwise None f [x] = Ok (match nth_error (pix o) i with Some y => [y] | None => [] end).
Proof.
  intros W N; rewrite image_fn_ok by auto; eexists; split; [reflexivity|]; split; [unfold wf in *; cbn [dims pix]; rewrite map_length; exact W|]; split; [reflexivity|].
  intros i x Hx; rewrite channelwise_ok by exact I; cbn [pix map]; rewrite nth_error_map, Hx; reflexivity.
Qed.
Print Assumptions C151_image.
Theorem C151_colour s f im ds g : sched1_ok s -> ReprN im ds g -> 0 < prodn ds -> (forall i, in_range ds i -> length (g i) = 3) ->
  exists o h, image_fn3 s f im = Ok o /\ ReprN o ds h /\ forall i, in_range ds i -> channelwise None f (g i) = Ok (h i).
Proof.
  intros Hs R P L; unfold image_fn3.
  destruct (apply_each3_ReprN s None [] (image_fn f) im ds g (fun k i => lift (scalar f) (nth k (g i) None)) Hs R P L ds P) as (o & E & Ro).
  - intros k p Hk (q & Rq & Hq); destruct (image_fn_ReprN f p ds q Rq P) as (o & E & Ro); exists o; split; [exact E|].
    eapply ReprN_ext; [exact Ro|]; intros i Hi; cbn beta; specialize (Hq i Hi); apply (nth_error_nth _ _ None) in Hq; rewrite Hq; reflexivity.
  - exists o, (fun i => map (lift (scalar f)) (g i)); split; [exact E|]; split.
    + eapply ReprN_ext; [exact Ro|]; intros i Hi; cbn beta; specialize (L i Hi); destruct (g i) as [|a [|b [|c [|? ?]]]]; try discriminate; reflexivity.
    + intros i Hi; apply channelwise_ok; exact I.
Qed.
Print Assumptions C151_colour.
Theorem C151_multichannel s n f im ds g : sched1_ok s -> 0 < n -> ReprN im ds g -> 0 < prodn ds -> (forall i, in_range ds i -> length (g i) = n) ->
  exists o h, image_fn_mc s n f im = Ok o /\ ReprN o ds h /\ forall i, in_range ds i -> channelwise None f (g i) = Ok (h i).
Proof.
  intros Hs Hn R P L; unfold image_fn_mc, apply_each_mc.
  assert (M : forall k, k < n -> exists o, (let* p := get_plane_mc s None n im k in image_fn f p) = Ok o /\ ReprN o ds (fun i => lift (scalar f) (nth k (g i) None))).
  { intros k Hk; unfold get_plane_mc; destruct (Nat.leb_spec n k); [lia|].
    destruct (get_plane_ReprN s Hs None im ds g k (fun i => nth k (g i) None) R P) as (p & E & Rp).
    - intros i Hi; apply nth_error_nth'; rewrite (L i Hi); exact Hk.
    - rewrite E; cbn [bind]; apply image_fn_ReprN; auto. }
  assert (F : forall ks, (forall k, In k ks -> k < n) -> exists ps, mapM (fun k => let* p := get_plane_mc s None n im k in image_fn f p) ks = Ok ps
    /\ Forall2 (fun p h => ReprN p ds h) ps (map (fun k i => lift (scalar f) (nth k (g i) None)) ks)).
  { induction ks as [|k ks IH]; intros Hk; [exists []; split; [reflexivity | constructor]|].
    destruct (M k) as (o & E & Ro); [apply Hk; left; reflexivity|]; destruct IH as (ps & Ep & Fp); [intros j Hj; apply Hk; right; exact Hj|].
    exists (o :: ps); cbn [mapM map]; rewrite E; cbn [bind]; rewrite Ep; cbn [bind]; split; [reflexivity | constructor; auto]. }
  destruct (F (seq 0 n)) as (ps & Ep & Fp); [intros k Hk; apply in_seq in Hk; lia|]; rewrite Ep; cbn [bind].
  destruct (construct_multichannel_ReprN s Hs [] ps _ ds Fp) as (o & E & Ro); [intros ->; destruct n; [lia | inversion Fp] | exact P |].
  exists o, (fun i => map (lift (scalar f)) (g i)); split; [exact E|]; split.
  - eapply ReprN_ext; [exact Ro|]; intros i Hi; cbn beta; rewrite map_map; apply nth_error_ext; intros k; rewrite !nth_error_map; specialize (L i Hi).
    destruct (Nat.lt_ge_cases k n) as [Hk|Hk].
    + rewrite nth_error_seq by exact Hk; cbn [option_map]; rewrite (nth_error_nth' (g i) None) by lia; reflexivity.
    + replace (nth_error (seq 0 n) k) with (@None nat) by (symmetry; apply nth_error_None; rewrite seq_length; exact Hk).
      replace (nth_error (g i) k) with (@None fl) by (symmetry; apply nth_error_None; lia); reflexivity.
  - intros i Hi; apply channelwise_ok; exact I.
Qed.
Print Assumptions C151_multichannel.
(** pow of a picture with a policy is pow without *)
Theorem C151_pow s e im : sched1_ok s -> wf im -> pix im <> [] -> image_pow_policy s e im = image_fn (Pow e) im.
Proof.
  intros Hs W N; rewrite image_fn_ok by auto; unfold image_pow_policy, pixelwise1_policy.
  rewrite (fill_ok s (length (pix im)) None _ (fun i => lift (scalar (Pow e)) (nth i (pix im) None))); [|apply Hs|].
  - cbn [bind]; replace (map _ (seq 0 (length (pix im)))) with (map (lift (scalar (Pow e))) (pix im)).
    + apply image_data_ok; [intros E; apply map_eq_nil in E; auto | rewrite map_length; exact W].
    + apply nth_error_ext; intros i; rewrite !nth_error_map; destruct (Nat.lt_ge_cases i (length (pix im))) as [L|L].
      * rewrite nth_error_seq by exact L; cbn [option_map]; rewrite (nth_error_nth' (pix im) None L); reflexivity.
      * replace (nth_error (seq 0 (length (pix im))) i) with (@None nat) by (symmetry; apply nth_error_None; rewrite seq_length; exact L).
        replace (nth_error (pix im) i) with (@None fl) by (symmetry; apply nth_error_None; exact L); reflexivity.
  - intros i Hi; rewrite (vget_ok (pix im) i (nth i (pix im) None)) by (apply nth_error_nth'; exact Hi); reflexivity.
Qed.
Print Assumptions C151_pow.
Example C151_case : image_fn3 seq0 Floor (mkImage [1; 1] [[Some 3%R; Some (1 / 2)%R; None]]) = Ok (mkImage [1; 1] [[Some 3%R; Some 0%R; None]]).
Proof.
  assert (A : rfloor 3 = 3%R) by (unfold rfloor; rewrite Int_part_IZR; reflexivity).
  assert (B : rfloor (1 / 2) = 0%R).
  { unfold rfloor; pose proof (base_Int_part (1 / 2)) as [H1 H2]; assert (Int_part (1 / 2) < 1)%Z by (apply lt_IZR; lra); assert (-1 < Int_part (1 / 2))%Z by (apply lt_IZR; lra).
    replace (Int_part (1 / 2)) with 0%Z by lia; reflexivity. }
  unfold image_fn3, apply_each3, image_fn; cbn -[rfloor]; cbn [lift image_scalar scalar]; rewrite A, B; reflexivity.
Qed.

(** ** C152  the functions are the ones their names say *)
(** [undoes f g D]: g undoes f for the numbers in D *)
Inductive undoes : fn -> fn -> (R -> Prop) -> Prop :=
| u_sin : undoes Sin Asin (fun x => - (PI / 2) <= x <= PI / 2)%R
| u_asin : undoes Asin Sin (fun x => -1 <= x <= 1)%R
| u_cos : undoes Cos Acos (fun x => 0 <= x <= PI)%R
| u_acos : undoes Acos Cos (fun x => -1 <= x <= 1)%R
| u_tan : undoes Tan Atan (fun x => - (PI / 2) < x < PI / 2)%R
| u_atan : undoes Atan Tan (fun _ => True)
| u_sinh : undoes Sinh Asinh (fun _ => True)
| u_asinh : undoes Asinh Sinh (fun _ => True)
| u_cosh : undoes Cosh Acosh (fun x => 0 <= x)%R
| u_acosh : undoes Acosh Cosh (fun x => 1 <= x)%R
| u_tanh : undoes Tanh Atanh (fun _ => True)
| u_atanh : undoes Atanh Tanh (fun x => -1 < x < 1)%R
| u_exp : undoes Exp Log (fun _ => True)
| u_log : undoes Log Exp (fun x => 0 < x)%R
| u_exp2 : undoes Exp2 Log2 (fun _ => True)
| u_log2 : undoes Log2 Exp2 (fun x => 0 < x)%R
| u_expm1 : undoes Expm1 Log1p (fun _ => True)
| u_log1p : undoes Log1p Expm1 (fun x => -1 < x)%R
| u_sqrt : undoes Sqrt (Pow 2) (fun x => 0 <= x)%R
| u_square : undoes (Pow 2) Sqrt (fun x => 0 <= x)%R
| u_cbrt : undoes Cbrt (Pow 3) (fun _ => True)
| u_cube : undoes (Pow 3) Cbrt (fun _ => True).
Lemma undo_one f g D x : undoes f g D -> D x -> exists y, scalar f x = Some y /\ scalar g y = Some x.
Proof.
  intros U; destruct U; intros H; cbn [scalar].
  - exists (sin x); split; [reflexivity|]; pose proof (SIN_bound x); rewrite !rle_true by lra; cbn [andb]; rewrite asin_sin by exact H; reflexivity.
  - rewrite !rle_true by lra; cbn [andb]; exists (asin x); split; [reflexivity|]; rewrite sin_asin by exact H; reflexivity.
  - exists (cos x); split; [reflexivity|]; pose proof (COS_bound x); rewrite !rle_true by lra; cbn [andb]; rewrite acos_cos by exact H; reflexivity.
  - rewrite !rle_true by lra; cbn [andb]; exists (acos x); split; [reflexivity|]; rewrite cos_acos by exact H; reflexivity.
  - unfold std_tan; rewrite req_false by (pose proof (cos_gt_0 x); lra); exists (tan x); split; [reflexivity|]; rewrite atan_tan by exact H; reflexivity.
  - exists (atan x); split; [reflexivity|]; unfold std_tan; pose proof (atan_bound x) as [A B]; rewrite req_false by (pose proof (cos_gt_0 (atan x)); lra); rewrite tan_atan; reflexivity.
  - eexists; split; [reflexivity|]; rewrite arcsinh_sinh; reflexivity.
  - eexists; split; [reflexivity|]; rewrite sinh_arcsinh; reflexivity.
  - eexists; split; [reflexivity|]; rewrite rle_true by apply cosh_ge1; rewrite acosh_cosh by exact H; reflexivity.
  - rewrite rle_true by exact H; eexists; split; [reflexivity|]; rewrite cosh_acosh by exact H; reflexivity.
  - eexists; split; [reflexivity|]; pose proof (tanh_bound x); rewrite !rlt_true by lra; cbn [andb]; rewrite atanh_tanh; reflexivity.
  - rewrite !rlt_true by lra; cbn [andb]; eexists; split; [reflexivity|]; rewrite tanh_atanh by exact H; reflexivity.
  - eexists; split; [reflexivity|]; rewrite rlt_true by apply exp_pos; rewrite ln_exp; reflexivity.
  - rewrite rlt_true by exact H; eexists; split; [reflexivity|]; rewrite exp_ln by exact H; reflexivity.
  - eexists; split; [reflexivity|]; rewrite rlt_true by apply exp_pos; unfold Rpower; rewrite ln_exp; f_equal; field; pose proof ln_lt_2; lra.
  - rewrite rlt_true by exact H; eexists; split; [reflexivity|]; unfold Rpower; replace (ln x / ln 2 * ln 2)%R with (ln x) by (field; pose proof ln_lt_2; lra); rewrite exp_ln by exact H; reflexivity.
  - eexists; split; [reflexivity|]; pose proof (exp_pos x); rewrite rlt_true by lra; replace (1 + (exp x - 1))%R with (exp x) by ring; rewrite ln_exp; reflexivity.
  - rewrite rlt_true by exact H; eexists; split; [reflexivity|]; rewrite exp_ln by lra; f_equal; lra.
  - rewrite rle_true by exact H; eexists; split; [reflexivity|]; change 2%R with (INR 2); rewrite rpow_nat by discriminate; f_equal; cbn; rewrite Rmult_1_r; apply sqrt_sqrt, H.
  - change 2%R with (INR 2); rewrite rpow_nat by discriminate; eexists; split; [reflexivity|]; rewrite rle_true by (cbn; nra); f_equal; cbn; rewrite Rmult_1_r; apply sqrt_square, H.
  - eexists; split; [reflexivity|]; replace 3%R with (INR 3) by (cbn; ring); rewrite rpow_nat by discriminate; f_equal; apply cube_cbrt.
  - replace 3%R with (INR 3) by (cbn; ring); rewrite rpow_nat by discriminate; eexists; split; [reflexivity|]; f_equal; apply cbrt_cube.
Qed.
(** every channel of a pixel, any number of channels, with and without a policy *)
Theorem C152_inverse pol pol' f g D p : pol_ok pol -> pol_ok pol' -> undoes f g D -> Forall D p ->
  exists q, channelwise pol f (map Some p) = Ok q /\ channelwise pol' g q = Ok (map Some p).
Proof.
  intros H H' U Fp; rewrite channelwise_ok by exact H; eexists; split; [reflexivity|]; rewrite channelwise_ok by exact H'; f_equal; rewrite !map_map.
  induction Fp as [|x p Dx Fp IH]; [reflexivity|]; cbn [map]; rewrite IH; f_equal; cbn [lift]; destruct (undo_one f g D x U Dx) as (y & E1 & E2); rewrite E1; exact E2.
Qed.
Print Assumptions C152_inverse.
(** pictures *)
Theorem C152_picture f g D ds l : undoes f g D -> l <> [] -> length l = prodn ds -> Forall D l ->
  exists o, image_fn f (mkImage ds (map Some l)) = Ok o /\ image_fn g o = Ok (mkImage ds (map Some l)).
Proof.
  intros U N L Fl; rewrite image_fn_ok; [|unfold wf; cbn [dims pix]; rewrite map_length; exact L | cbn [pix]; intros E; apply map_eq_nil in E; auto].
  eexists; split; [reflexivity|]; rewrite image_fn_ok; [|unfold wf; cbn [dims pix]; rewrite !map_length; exact L | cbn [pix]; intros E; apply map_eq_nil, map_eq_nil in E; auto].
  cbn [dims pix]; do 2 f_equal; rewrite !map_map; apply map_ext_in; intros x Hx; rewrite Forall_forall in Fl; cbn [lift].
  destruct (undo_one f g D x U (Fl x Hx)) as (y & E1 & E2); rewrite E1; exact E2.
Qed.
Print Assumptions C152_picture.
Example C152_case : undoes Tan Atan (fun x => - (PI / 2) < x < PI / 2)%R /\ Forall (fun x => - (PI / 2) < x < PI / 2)%R [0; 1; -1]%R.
Proof. split; [constructor|]; pose proof PI2_1; repeat constructor; lra. Qed.
(** the identities between the functions of one number *)
Theorem C152_identities x :
  (exists s c, scalar Sin x = Some s /\ scalar Cos x = Some c /\ s ^ 2 + c ^ 2 = 1
     /\ (c <> 0 -> scalar Tan x = Some (s / c) /\ exists e, scalar Sec x = Some e /\ c * e = 1)
     /\ (s <> 0 -> exists e, scalar Csc x = Some e /\ s * e = 1)
     /\ (c <> 0 -> s <> 0 -> exists t, scalar Cot x = Some t /\ t * s = c))%R
  /\ (exists s c t, scalar Sinh x = Some s /\ scalar Cosh x = Some c /\ scalar Tanh x = Some t /\ c ^ 2 - s ^ 2 = 1 /\ c + s = exp x /\ t * c = s)%R
  /\ (0 < x -> exists l a b, scalar Log x = Some l /\ scalar Log10 x = Some a /\ scalar Log2 x = Some b /\ Rpower 10 a = x /\ Rpower 2 b = x /\ exp l = x)%R.
Proof.
  split; [|split].
  - exists (sin x), (cos x); split; [reflexivity|]; split; [reflexivity|]; split; [pose proof (sin2_cos2 x) as E; unfold Rsqr in E; nra|]; split; [|split].
    + intros N; cbn [scalar]; unfold std_tan, inv; rewrite !req_false by exact N; split; [reflexivity|]; eexists; split; [reflexivity | field; exact N].
    + intros N; cbn [scalar]; unfold inv; rewrite req_false by exact N; eexists; split; [reflexivity | field; exact N].
    + intros N M; cbn [scalar]; unfold std_tan, inv; rewrite req_false by exact N; assert (T : tan x <> 0%R) by (unfold tan; apply Rmult_integral_contrapositive; split; [exact M | apply Rinv_neq_0_compat, N]).
      rewrite req_false by exact T; eexists; split; [reflexivity|]; unfold tan in *; field; auto.
  - exists (sinh x), (cosh x), (tanh x); split; [reflexivity|]; split; [reflexivity|]; split; [reflexivity|]; split; [apply cosh_sinh|]; split; [unfold cosh, sinh; lra|].
    unfold tanh; field; pose proof (cosh_ge1 x); lra.
  - intros H; cbn [scalar]; rewrite rlt_true by exact H; eexists _, _, _; split; [reflexivity|]; split; [reflexivity|]; split; [reflexivity|]; unfold Rpower.
    pose proof ln_lt_2; assert (0 < ln 10)%R by (rewrite <- ln_1; apply ln_increasing; lra).
    replace (ln x / ln 10 * ln 10)%R with (ln x) by (field; lra); replace (ln x / ln 2 * ln 2)%R with (ln x) by (field; lra); rewrite !exp_ln by exact H; auto.
Qed.
Print Assumptions C152_identities.
(** the exponent law of pow, and whole exponents *)
Theorem C152_pow x a b : (0 < x)%R -> exists u v w, scalar (Pow a) x = Some u /\ scalar (Pow b) x = Some v /\ scalar (Pow (a + b)) x = Some w /\ w = (u * v)%R.
Proof. intros H; cbn [scalar]; unfold rpow; rewrite rlt_true by exact H; eexists _, _, _; repeat (split; [reflexivity|]); apply Rpower_plus. Qed.
Print Assumptions C152_pow.
Theorem C152_whole_power x n : 0 < n -> scalar (Pow (INR n)) x = Some (x ^ n)%R.
Proof. intros H; cbn [scalar]; apply rpow_nat; lia. Qed.
Print Assumptions C152_whole_power.
(** the exponent zero gives 1, also at zero; a positive exponent takes zero to zero *)
Theorem C152_pow_zero x e : scalar (Pow 0) x = Some 1%R /\ ((0 < e)%R -> scalar (Pow e) 0 = Some 0%R).
Proof.
  assert (E : Int_part 0 = 0%Z) by (change 0%R with (IZR 0); apply Int_part_IZR).
  cbn [scalar]; unfold rpow; split.
  - destruct (Rlt_dec 0 x) as [L|L].
    + rewrite rlt_true, Rpower_O by exact L; reflexivity.
    + rewrite rlt_false by lra; rewrite req_true by (unfold rfloor; rewrite E; reflexivity); rewrite E.
      destruct (Req_dec x 0) as [-> | M].
      * rewrite !(req_true 0 0) by reflexivity; rewrite rlt_false by lra; reflexivity.
      * rewrite req_false by exact M; reflexivity.
  - intros P; rewrite rlt_false by lra; rewrite (req_true 0 0) by reflexivity; rewrite rlt_false by lra; rewrite (req_false e 0) by lra.
    destruct (req e (rfloor e)); reflexivity.
Qed.
Print Assumptions C152_pow_zero.
(** roundings *)
Theorem C152_rounding x : exists f c t n,
  scalar Floor x = Some (IZR f) /\ scalar Ceil x = Some (IZR c) /\ scalar Trunc x = Some (IZR t) /\ scalar Nearbyint x = Some (IZR n) /\ scalar Rint x = Some (IZR n)
  /\ (IZR f <= x < IZR f + 1)%R /\ (IZR c - 1 < x <= IZR c)%R
  /\ ((0 <= x -> t = f) /\ (x <= 0 -> t = c))%R
  /\ (Rabs (x - IZR n) <= 1 / 2)%R /\ ((Rabs (x - IZR n) = 1 / 2)%R -> Z.even n = true).
Proof.
  destruct (rceil_IZR x) as [c Ec]; destruct (rtrunc_IZR x) as [t Et]; destruct (rnear_spec x) as (n & En & N1 & N2).
  exists (Int_part x), c, t, n; cbn [scalar]; rewrite Ec, Et, En; repeat (split; [reflexivity|]); fold (rfloor x).
  pose proof (rfloor_spec x) as Hf; pose proof (rceil_spec x) as Hc; rewrite Ec in Hc; split; [exact Hf|]; split; [exact Hc|]; split; [|auto]; split; intros H.
  - pose proof (rtrunc_pos x H) as [A B]; rewrite Et in A, B; unfold rfloor in Hf; assert (t < Int_part x + 1)%Z by (apply lt_IZR; rewrite plus_IZR; lra); assert (Int_part x < t + 1)%Z by (apply lt_IZR; rewrite plus_IZR; lra); lia.
  - pose proof (rtrunc_neg x H) as [A B]; rewrite Et in A, B; assert (t < c + 1)%Z by (apply lt_IZR; rewrite plus_IZR; lra); assert (c < t + 1)%Z by (apply lt_IZR; rewrite plus_IZR; lra); lia.
Qed.
Print Assumptions C152_rounding.
(** outside its domain a function gives no finite number, and neither does any function of that *)
Definition outside (f : fn) (x : R) : Prop :=
  match f with
  | Sqrt => x < 0 | Log | Log2 | Log10 => x <= 0 | Log1p => x <= -1 | Asin | Acos => x < -1 \/ 1 < x | Acosh => x < 1 | Atanh => x <= -1 \/ 1 <= x
  | Csc => sin x = 0 | Sec | Tan => cos x = 0 | Pow e => x < 0 /\ e <> IZR (Int_part e) \/ x = 0 /\ e < 0
  | _ => False
  end%R.
Theorem C152_domain pol pol' f g x : pol_ok pol -> pol_ok pol' -> outside f x -> channelwise pol f [Some x] = Ok [None] /\ channelwise pol' g [None] = Ok [None].
Proof.
  intros H H' O; rewrite !channelwise_ok by assumption; split; [|reflexivity]; cbn [map lift]; do 2 f_equal; destruct f; cbn [outside scalar] in *; try contradiction.
  - unfold rpow, rfloor; destruct O as [[N E]|[-> E]].
    + rewrite rlt_false by lra; rewrite req_false by exact E; rewrite req_false by lra; reflexivity.
    + rewrite rlt_false by lra; rewrite (req_true 0 0) by reflexivity; rewrite rlt_true by exact E; destruct (req e _); reflexivity.
  - rewrite rle_false by exact O; reflexivity.
  - unfold std_tan; rewrite req_true by exact O; reflexivity.
  - unfold inv; rewrite req_true by exact O; reflexivity.
  - unfold inv; rewrite req_true by exact O; reflexivity.
  - destruct O; [rewrite (rle_false (-1)) by lra | rewrite (rle_true (-1)), rle_false by lra]; reflexivity.
  - destruct O; [rewrite (rle_false (-1)) by lra | rewrite (rle_true (-1)), rle_false by lra]; reflexivity.
  - rewrite rle_false by exact O; reflexivity.
  - destruct O; [rewrite (rlt_false (-1)) by lra | rewrite (rlt_true (-1)), rlt_false by lra]; reflexivity.
  - rewrite rlt_false by exact O; reflexivity.
  - rewrite rlt_false by exact O; reflexivity.
  - rewrite rlt_false by exact O; reflexivity.
  - rewrite rlt_false by exact O; reflexivity.
Qed.
Print Assumptions C152_domain.

(** ** C153  complex pictures and pictures of doubles *)
Theorem C153_parts {A} (re im : image A) : wf re -> wf im -> pix re <> [] ->
  (dims re = dims im -> exists o, generate_complex_image re im = Ok o /\ wf o /\ dims o = dims re /\ map fst (pix o) = pix re /\ map snd (pix o) = pix im)
  /\ (dims re <> dims im -> generate_complex_image re im = Throw RuntimeError).
Proof.
  intros Wr Wi N; unfold generate_complex_image; split; intros D.
  - rewrite <- D, size_eqb_same; cbn [negb]; unfold pixelwise2; assert (L : length (pix re) = length (pix im)) by (unfold wf in *; congruence).
    rewrite transform2_combine by exact L; cbn [bind]; rewrite image_data_ok.
    + eexists; split; [reflexivity|]; unfold wf in *; cbn [dims pix]; split; [rewrite map_length, combine_length, <- L, Nat.min_id; exact Wr|]; split; [reflexivity|].
      rewrite !map_map; cbn [fst snd]; clear -L; revert L; generalize (pix im); induction (pix re) as [|a l IH]; intros [|b m] L; try discriminate; [auto|]; cbn in *.
      destruct (IH m) as [E1 E2]; [lia|]; rewrite E1, E2; auto.
    + intros M; apply map_eq_nil in M; destruct (pix re); [congruence|]; destruct (pix im); discriminate.
    + rewrite map_length, combine_length, <- L, Nat.min_id; exact Wr.
  - rewrite size_eqb_other by exact D; reflexivity.
Qed.
Print Assumptions C153_parts.
Theorem C153_to_complex {A} pol (zero : A) im : pol_ok pol -> wf im -> pix im <> [] ->
  exists o z, to_complex pol zero im = Ok o /\ dims z = dims im /\ wf z /\ (forall x, In x (pix z) -> x = zero) /\ generate_complex_image im z = Ok o.
Proof.
  intros Hp W N; unfold to_complex; rewrite (transform_seq_ok _ _ _ (fun x => (x, zero))) by auto; cbn [bind].
  rewrite image_data_ok; [|intros E; apply map_eq_nil in E; auto | rewrite map_length; exact W].
  eexists; exists (mkImage (dims im) (map (fun _ => zero) (pix im))); split; [reflexivity|]; split; [reflexivity|]; split; [unfold wf in *; cbn [dims pix]; rewrite map_length; exact W|].
  split; [cbn [pix]; intros x Hx; apply in_map_iff in Hx as (y & <- & _); reflexivity|].
  unfold generate_complex_image; cbn [dims]; rewrite size_eqb_same; cbn [negb]; unfold pixelwise2; cbn [pix]; rewrite transform2_combine by (rewrite map_length; reflexivity); cbn [bind].
  replace (map (fun ab => (fst ab, snd ab)) (combine (pix im) (map (fun _ => zero) (pix im)))) with (map (fun x => (x, zero)) (pix im)).
  - apply image_data_ok; [intros E; apply map_eq_nil in E; auto | rewrite map_length; exact W].
  - generalize (pix im); intros l; clear; induction l as [|a l IH]; [reflexivity|]; cbn; rewrite IH; reflexivity.
Qed.
Print Assumptions C153_to_complex.
Theorem C153_to_double {A B} pol (d : B) (conv : A -> B) im : pol_ok pol -> wf im -> pix im <> [] ->
  exists o, to_double pol d conv im = Ok o /\ wf o /\ dims o = dims im /\ forall i x, nth_error (pix im) i = Some x -> nth_error (pix o) i = Some (conv x).
Proof.
  intros Hp W N; unfold to_double; rewrite (transform_seq_ok _ _ _ conv) by auto; cbn [bind].
  rewrite image_data_ok; [|intros E; apply map_eq_nil in E; auto | rewrite map_length; exact W].
  eexists; split; [reflexivity|]; split; [unfold wf in *; cbn [dims pix]; rewrite map_length; exact W|]; split; [reflexivity|]; intros i x Hx; cbn [pix]; rewrite nth_error_map, Hx; reflexivity.
Qed.
Print Assumptions C153_to_double.
Theorem C153_to_double_colour {A B} s pol (a : A) (d : B) (conv : A -> B) im ds g : sched1_ok s -> pol_ok pol -> ReprN im ds g -> 0 < prodn ds -> (forall i, in_range ds i -> length (g i) = 3) ->
  exists o, to_double3 s pol a d conv im = Ok o /\ ReprN o ds (fun i => map conv (g i)).
Proof.
  intros Hs Hp R P L; unfold to_double3.
  destruct (apply_each3_ReprN s a [] (to_double pol d conv) im ds g (fun k i => conv (nth k (g i) a)) Hs R P L ds P) as (o & E & Ro).
  - intros k p Hk (q & (Dq & Lq & Gq) & Hq); unfold to_double; rewrite (transform_seq_ok _ _ _ conv) by auto; cbn [bind].
    rewrite image_data_ok; [|intros E; apply map_eq_nil in E; rewrite E in Lq; cbn in Lq; lia | rewrite map_length, Dq; exact Lq].
    eexists; split; [reflexivity|]; split; [exact Dq|]; split; [cbn [pix]; rewrite map_length; exact Lq|]; intros i Hi; cbn [pix]; rewrite nth_error_map, (Gq i Hi); cbn [option_map].
    specialize (Hq i Hi); apply (nth_error_nth _ _ a) in Hq; rewrite Hq; reflexivity.
  - exists o; split; [exact E|]; eapply ReprN_ext; [exact Ro|]; intros i Hi; cbn beta; specialize (L i Hi); destruct (g i) as [|x [|y [|z [|? ?]]]]; try discriminate; reflexivity.
Qed.
Print Assumptions C153_to_double_colour.
Example C153_case : generate_complex_image (mkImage [2; 1] [1; 2]) (mkImage [2; 1] [7; 8]) = Ok (mkImage [2; 1] [(1, 7); (2, 8)])
  /\ to_complex (Some seq0) 0 (mkImage [2; 1] [1; 2]) = Ok (mkImage [2; 1] [(1, 0); (2, 0)])
  /\ to_double3 seq0 None 0 0 (fun x => x * 10) (mkImage [1; 1] [[1; 2; 3]]) = Ok (mkImage [1; 1] [[10; 20; 30]]).
Proof. repeat split. Qed.

(** ** C154  differences of sequences and distances of colour pictures *)
Theorem C154_difference sc narrow p q : sched1_ok sc ->
  (length p = length q -> exists o, difference_range sc narrow p q = Ok o /\ length o = length p
     /\ forall i a b, nth_error p i = Some a -> nth_error q i = Some b -> nth_error o i = Some (narrow (Z.abs (a - b))))
  /\ (length p <> length q -> difference_range sc narrow p q = Throw RuntimeError).
Proof.
  intros Hs; unfold difference_range; split; intros L.
  - rewrite L, Nat.eqb_refl; cbn [negb]; rewrite <- L.
    rewrite (fill_ok sc (length p) 0%Z _ (fun i => narrow (Z.abs (nth i p 0%Z - nth i q 0%Z)))); [|apply Hs|].
    + eexists; split; [reflexivity|]; split; [rewrite map_length, seq_length; reflexivity|]; intros i a b Ha Hb; rewrite nth_error_map, nth_error_seq by (apply nth_error_Some; congruence).
      cbn [option_map]; rewrite Nat.add_0_l, (nth_error_nth _ _ _ Ha), (nth_error_nth _ _ _ Hb); reflexivity.
    + intros i Hi; rewrite (vget_ok p i (nth i p 0%Z)) by (apply nth_error_nth'; exact Hi); cbn [bind]; rewrite (vget_ok q i (nth i q 0%Z)) by (apply nth_error_nth'; lia); cbn [bind].
      do 2 f_equal; destruct (Z.ltb_spec (nth i q 0%Z) (nth i p 0%Z)); lia.
  - apply Nat.eqb_neq in L; rewrite L; reflexivity.
Qed.
Print Assumptions C154_difference.
(** unsigned elements of b bits: the difference itself *)
Theorem C154_unsigned sc b p q : sched1_ok sc -> length p = length q -> Forall (fun x => 0 <= x < 2 ^ b)%Z (p ++ q) ->
  exists o, difference_range sc (fun z => z mod 2 ^ b)%Z p q = Ok o /\ length o = length p
    /\ forall i x y, nth_error p i = Some x -> nth_error q i = Some y -> nth_error o i = Some (Z.abs (x - y)).
Proof.
  intros Hs L F; destruct (C154_difference sc (fun z => z mod 2 ^ b)%Z p q Hs) as [H _]; destruct (H L) as (o & E & Lo & G); exists o; split; [exact E|]; split; [exact Lo|].
  intros i x y Hx Hy; rewrite (G i x y Hx Hy); f_equal; apply Z.mod_small; rewrite Forall_forall in F.
  pose proof (F x (in_or_app _ _ _ (or_introl (nth_error_In _ _ Hx)))); pose proof (F y (in_or_app _ _ _ (or_intror (nth_error_In _ _ Hy)))); lia.
Qed.
Print Assumptions C154_unsigned.
(** signed bytes: the difference of -128 and 127 is -1 *)
Theorem C154_signed_refuted : exists p q, Forall (fun x => -128 <= x <= 127)%Z (p ++ q)
  /\ exists o, difference_range seq0 (fun z => (z + 128) mod 256 - 128)%Z p q = Ok o /\ Exists (fun x => x < 0)%Z o.
Proof. exists [-128]%Z, [127]%Z; split; [repeat constructor; lia|]; eexists; split; [reflexivity|]; constructor; reflexivity. Qed.
Print Assumptions C154_signed_refuted.

(** the sum of the squares of the differences of one channel *)
Definition square_gap (k : nat) (x y : list (list R)) : R := fold_right Rplus 0%R (map (fun pq => (nth k (fst pq) 0 - nth k (snd pq) 0) ^ 2)%R (combine x y)).
Lemma euclid_channels {A} n (sub : A -> A -> list R) (x y : image A) r : length (pix x) = length (pix y) ->
  (forall a b, In a (pix x) -> In b (pix y) -> length (sub a b) = n) -> euclidean_channels n sub x y r ->
  r = Ok (map (fun k => sqrt (fold_right Rplus 0%R (map (fun ab => nth k (sub (fst ab) (snd ab)) 0%R ^ 2)%R (combine (pix x) (pix y))))) (seq 0 n)).
Proof.
  intros L S H; unfold euclidean_channels in H; rewrite <- L, Nat.eqb_refl in H; cbn [negb] in H; destruct H as (p & s & Ep & Rs & ->).
  rewrite transform2_combine in Ep by exact L; injection Ep as <-; f_equal.
  assert (Fn : Forall (fun p => length p = n) (map (fun ab => square_channels (sub (fst ab) (snd ab))) (combine (pix x) (pix y)))).
  { apply Forall_forall; intros c Hc; apply in_map_iff in Hc as ([a b] & <- & I); unfold square_channels; rewrite map_length; apply S; [apply in_combine_l in I | apply in_combine_r in I]; exact I. }
  apply (reduces_csum n) in Rs; [|constructor; [apply repeat_length | exact Fn]]; rewrite Rs; unfold csum; rewrite map_map; apply map_ext_in; intros k Hk; apply in_seq in Hk; f_equal.
  cbn [map fold_right]; rewrite nth_repeat, Rplus_0_l; f_equal; rewrite map_map; apply map_ext_in; intros [a b] I; cbn [fst snd]; unfold square_channels.
  assert (Ls : length (sub a b) = n) by (apply S; [apply in_combine_l in I | apply in_combine_r in I]; exact I).
  apply nth_error_nth; rewrite nth_error_map, (nth_error_nth' (sub a b) 0%R) by lia; reflexivity.
Qed.
Lemma sub_nth p q k n : length p = n -> length q = n -> k < n -> nth k (sub_channels p q) 0%R = (nth k p 0 - nth k q 0)%R.
Proof.
  intros Lp Lq H; unfold sub_channels; apply nth_error_nth; rewrite nth_error_map.
  assert (E : nth_error (combine p q) k = Some (nth k p 0%R, nth k q 0%R)) by (rewrite <- (combine_nth p q k 0%R 0%R) by lia; apply nth_error_nth'; rewrite combine_length; lia).
  rewrite E; reflexivity.
Qed.
(** doubles: one distance for each channel, whatever the order of the sum *)
Theorem C154_distance n x y r : length (pix x) = length (pix y) -> Forall (fun p => length p = n) (pix x) -> Forall (fun p => length p = n) (pix y) ->
  euclidean_channels n sub_channels x y r -> r = Ok (map (fun k => sqrt (square_gap k (pix x) (pix y))) (seq 0 n)).
Proof.
  intros L Fx Fy H; rewrite Forall_forall in Fx, Fy; apply euclid_channels in H; [|exact L|].
  - rewrite H; f_equal; apply map_ext_in; intros k Hk; apply in_seq in Hk; f_equal; unfold square_gap; f_equal; apply map_ext_in; intros [a b] I; cbn [fst snd].
    rewrite (sub_nth a b k n); auto; [apply Fx; apply in_combine_l in I; exact I | apply Fy; apply in_combine_r in I; exact I | lia].
  - intros a b Ia Ib; unfold sub_channels; rewrite map_length, combine_length, (Fx a Ia), (Fy b Ib); apply Nat.min_id.
Qed.
Print Assumptions C154_distance.
Lemma gap_sym k p q : square_gap k p q = square_gap k q p.
Proof.
  unfold square_gap; revert q; induction p as [|a p IH]; intros [|b q]; cbn [combine map fold_right]; auto; rewrite IH; cbn [fst snd]; f_equal; cbn; ring.
Qed.
Theorem C154_symmetric n x y r r' : length (pix x) = length (pix y) -> Forall (fun p => length p = n) (pix x) -> Forall (fun p => length p = n) (pix y) ->
  euclidean_channels n sub_channels x y r -> euclidean_channels n sub_channels y x r' -> r = r'.
Proof.
  intros L Fx Fy H H'; rewrite (C154_distance n x y r), (C154_distance n y x r') by auto; f_equal; apply map_ext; intros k; f_equal; apply gap_sym.
Qed.
Print Assumptions C154_symmetric.
(** zero just for equal pixels *)
Theorem C154_zero n x y : length (pix x) = length (pix y) -> Forall (fun p => length p = n) (pix x) -> Forall (fun p => length p = n) (pix y) ->
  (euclidean_channels n sub_channels x y (Ok (repeat 0%R n)) <-> pix x = pix y).
Proof.
  intros L Fx Fy; split; intros H.
  - apply C154_distance in H; auto; injection H as H.
    assert (Z0 : forall k, k < n -> square_gap k (pix x) (pix y) = 0%R).
    { intros k Hk; assert (E : nth k (repeat 0%R n) 0%R = sqrt (square_gap k (pix x) (pix y))) by (rewrite H, nth_map_seq by exact Hk; reflexivity).
      rewrite nth_repeat in E; symmetry in E; apply sqrt_eq_0 in E; [exact E|].
      unfold square_gap; clear; induction (combine (pix x) (pix y)) as [|[a b] l IH]; cbn [map fold_right]; [lra|]; pose proof (pow2_ge_0 (nth k (fst (a, b)) 0 - nth k (snd (a, b)) 0)%R); lra. }
    clear H; revert L Fx Fy Z0; generalize (pix y) as q; induction (pix x) as [|a p IH]; intros [|b q] L Fx Fy Z0; try discriminate; [reflexivity|].
    inversion Fx; subst; inversion Fy; subst; assert (P : forall k, k < length a -> (0 <= square_gap k p q)%R).
    { intros k _; unfold square_gap; clear; induction (combine p q) as [|[c d] l IH]; cbn [map fold_right]; [lra|]; pose proof (pow2_ge_0 (nth k (fst (c, d)) 0 - nth k (snd (c, d)) 0)%R); lra. }
    assert (Q : forall k, k < length a -> nth k a 0%R = nth k b 0%R /\ square_gap k p q = 0%R).
    { intros k Hk; specialize (Z0 k Hk); specialize (P k Hk); unfold square_gap in *; cbn [combine map fold_right fst snd] in Z0.
      pose proof (pow2_ge_0 (nth k a 0 - nth k b 0)%R); assert (E : ((nth k a 0 - nth k b 0) ^ 2 = 0)%R) by lra; split; [|lra]; cbn in E; rewrite Rmult_1_r in E; apply Rmult_integral in E; destruct E; lra. }
    f_equal; [apply (list_nth_ext 0%R); [congruence | intros k Hk; apply Q, Hk] | apply IH; auto; intros k Hk; apply Q, Hk].
  - unfold euclidean_channels; rewrite L, Nat.eqb_refl; cbn [negb]; rewrite transform2_combine by exact L.
    destruct (reduces_exists add_channels (repeat 0%R n :: map (fun ab => square_channels (sub_channels (fst ab) (snd ab))) (combine (pix x) (pix y)))) as [s Hs]; [discriminate|].
    eexists _, s; split; [reflexivity|]; split; [exact Hs|]; f_equal; apply reduces_csum with (n := n) in Hs.
    + rewrite Hs; unfold csum; rewrite map_map; rewrite H; rewrite Forall_forall in Fy; apply (list_nth_ext 0%R); [rewrite repeat_length, map_length, seq_length; reflexivity|].
      intros k Hk; rewrite repeat_length in Hk; rewrite nth_repeat, nth_map_seq by exact Hk; cbn [map fold_right]; rewrite nth_repeat, Rplus_0_l.
      replace (fold_right Rplus 0%R _) with 0%R; [symmetry; apply sqrt_0|]; clear H L Fx Hs; revert Fy; induction (pix y) as [|a l IH]; intros Fy; [reflexivity|]; cbn [combine map fold_right fst snd].
      rewrite <- IH by (intros p Hp; apply Fy; right; exact Hp); rewrite Rplus_0_r; symmetry; unfold square_channels; apply nth_error_nth; rewrite nth_error_map.
      assert (La : length a = n) by (apply Fy; left; reflexivity).
      assert (E : nth_error (sub_channels a a) k = Some 0%R).
      { rewrite (nth_error_nth' _ 0%R) by (unfold sub_channels; rewrite map_length, combine_length; lia); rewrite (sub_nth a a k n) by auto; f_equal; ring. }
      rewrite E; cbn; f_equal; ring.
    + constructor; [apply repeat_length|]; rewrite Forall_forall in *; intros c Hc; apply in_map_iff in Hc as ([a b] & <- & I); unfold square_channels, sub_channels; rewrite map_length, map_length, combine_length.
      cbn [fst snd]; rewrite (Fx a), (Fy b); [apply Nat.min_id | apply in_combine_r in I; exact I | apply in_combine_l in I; exact I].
Qed.
Print Assumptions C154_zero.
(** different numbers of pixels *)
Theorem C154_refused {A} n (sub : A -> A -> list R) x y r : length (pix x) <> length (pix y) -> euclidean_channels n sub x y r -> r = Throw RuntimeError.
Proof. intros N H; unfold euclidean_channels in H; apply Nat.eqb_neq in N; rewrite N in H; exact H. Qed.
Print Assumptions C154_refused.
(** pictures of different extents with as many pixels are not refused, though euclidean_distance of one channel refuses them *)
Theorem C154_extents_refuted : exists x y : image (list R), dims x <> dims y /\ wf x /\ wf y /\ exists l, euclidean_channels 3 sub_channels x y (Ok l).
Proof.
  exists (mkImage [1; 2] [[0; 0; 0]; [0; 0; 0]]%R), (mkImage [2; 1] [[0; 0; 0]; [0; 0; 0]]%R); split; [discriminate|]; split; [reflexivity|]; split; [reflexivity|].
  exists (repeat 0%R 3); apply C154_zero; [reflexivity | repeat constructor | repeat constructor | reflexivity].
Qed.
Print Assumptions C154_extents_refuted.
(** bytes: the differences wrap around, so that the distance depends on the order of the pictures *)
Theorem C154_bytes_refuted : exists x y, dims x = dims y /\ wf x /\ wf y /\ Forall (fun p => length p = 3 /\ Forall (fun c => 0 <= c < 256)%Z p) (pix x ++ pix y)
  /\ forall r r', euclidean_channels 3 sub_bytes x y r -> euclidean_channels 3 sub_bytes y x r' -> r = Ok [255; 255; 255]%R /\ r' = Ok [1; 1; 1]%R.
Proof.
  exists (mkImage [1; 1] [[0; 0; 0]]%Z), (mkImage [1; 1] [[1; 1; 1]]%Z); split; [reflexivity|]; split; [reflexivity|]; split; [reflexivity|]; split.
  - repeat constructor; lia.
  - intros r r' H H'; apply euclid_channels in H; [|reflexivity | intros a b [<-|[]] [<-|[]]; reflexivity]; apply euclid_channels in H'; [|reflexivity | intros a b [<-|[]] [<-|[]]; reflexivity].
    split; [rewrite H | rewrite H']; cbn [pix combine map seq nth fold_right fst snd sub_bytes].
    + change ((0 - 1) mod 256)%Z with 255%Z; replace (255 ^ 2 + 0)%R with (255 * 255)%R by ring; rewrite sqrt_square by lra; reflexivity.
    + change ((1 - 0) mod 256)%Z with 1%Z; replace (1 ^ 2 + 0)%R with (1 * 1)%R by ring; rewrite sqrt_square by lra; reflexivity.
Qed.
Print Assumptions C154_bytes_refuted.
(** bytes, when no channel of the first is below that of the second *)
Theorem C154_bytes x y r : length (pix x) = length (pix y) ->
  Forall (fun p => length p = 3 /\ Forall (fun c => 0 <= c < 256)%Z p) (pix x) -> Forall (fun p => length p = 3 /\ Forall (fun c => 0 <= c < 256)%Z p) (pix y) ->
  (forall p q k, In (p, q) (combine (pix x) (pix y)) -> k < 3 -> (nth k q 0 <= nth k p 0)%Z) ->
  euclidean_channels 3 sub_bytes x y r -> r = Ok (map (fun k => sqrt (square_gap k (map (map IZR) (pix x)) (map (map IZR) (pix y)))) [0; 1; 2]).
Proof.
  intros L Fx Fy G H; rewrite Forall_forall in Fx, Fy; apply euclid_channels in H; [|exact L|].
  - rewrite H; cbn [seq]; f_equal; apply map_ext_in; intros k Hk; assert (K : k < 3) by (destruct Hk as [<-|[<-|[<-|[]]]]; lia); f_equal; unfold square_gap.
    assert (E : combine (map (map IZR) (pix x)) (map (map IZR) (pix y)) = map (fun ab => (map IZR (fst ab), map IZR (snd ab))) (combine (pix x) (pix y))).
    { generalize (pix x) (pix y); clear; intros l; induction l as [|a l IH]; intros [|b m]; cbn; auto; rewrite IH; reflexivity. }
    rewrite E, map_map; f_equal; apply map_ext_in; intros [a b] I; cbn [fst snd]; pose proof (G a b k I K) as Gk.
    destruct (Fx a) as [La Ra]; [apply in_combine_l in I; exact I|]; destruct (Fy b) as [Lb Rb]; [apply in_combine_r in I; exact I|]; rewrite Forall_forall in Ra, Rb.
    assert (Na : nth_error a k = Some (nth k a 0%Z)) by (apply nth_error_nth'; lia); assert (Nb : nth_error b k = Some (nth k b 0%Z)) by (apply nth_error_nth'; lia).
    assert (Na' : nth k (map IZR a) 0%R = IZR (nth k a 0%Z)) by (apply nth_error_nth; rewrite nth_error_map, Na; reflexivity).
    assert (Nb' : nth k (map IZR b) 0%R = IZR (nth k b 0%Z)) by (apply nth_error_nth; rewrite nth_error_map, Nb; reflexivity).
    pose proof (Ra _ (nth_error_In _ _ Na)); pose proof (Rb _ (nth_error_In _ _ Nb)); rewrite Na', Nb', <- minus_IZR; do 2 f_equal; unfold sub_bytes.
    apply nth_error_nth; rewrite nth_error_map.
    assert (C : nth_error (combine a b) k = Some (nth k a 0%Z, nth k b 0%Z)) by (rewrite <- (combine_nth a b k 0%Z 0%Z) by lia; apply nth_error_nth'; rewrite combine_length; lia).
    rewrite C; cbn [option_map fst snd]; rewrite Z.mod_small by lia; reflexivity.
  - intros a b Ia Ib; unfold sub_bytes; rewrite map_length, combine_length; destruct (Fx a Ia) as [-> _]; destruct (Fy b Ib) as [-> _]; reflexivity.
Qed.
Print Assumptions C154_bytes.
Example C154_case : difference_range seq0 (fun z => z) [7; 0; 5]%Z [3; 9; 5]%Z = Ok [4; 9; 0]%Z
  /\ difference_range seq0 (fun z => z) [7]%Z [3; 9]%Z = Throw RuntimeError.
Proof. split; reflexivity. Qed.
