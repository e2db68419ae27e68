(** PropKey.v - the commands bicubic_resize, sift_generate_octave and get_sift_potential_keypoint in a session: C164 to C166. *)
From Coq Require Import Reals Lra QArith Qreals ZifyBool ZifyNat Ascii String.
From Verif Require Import Base CliModel CliProofs PipeProofs CommandModel CommandProofs ArithModel ArithProofs.
From Verif Require Import ConvModel BigSum RSum ImageModel ImageFacts IndexModel ImageProofs GeomModel GeomProofs PixelModel PixelProofs InterpModel InterpProofs PropInterp
  OField JacobiModel SiftModel SiftProofs PropBmp BmpModel TurnModel TurnProofs PropTurn PropSift GaussModel GaussProofs PropGauss LanczosModel LanczosProofs PropScale
  FrameModel FrameProofs PropFrame FourierModel FourierProofs PropFourier AngleModel StageModel PropStage KeyModel.
From Coq Require Import Rdefinitions.
Open Scope nat_scope.
Ltac Zify.zify_post_hook ::= Z.div_mod_to_equations.

(** ** specification *)
(** the weights of the four samples around a position, by the distance t of the position from the second one *)
Definition kernel (t : R) : list R := [- t + 2 * t ^ 2 - t ^ 3; 1 - 2 * t ^ 2 + t ^ 3; t + t ^ 2 - t ^ 3; - t ^ 2 + t ^ 3]%R.
(** the pixel x of [new] ones is at x * old / new: the sample before it, and the distance *)
Definition before (old new x : nat) : nat := x * old / new.
Definition distance (old new x : nat) : R := (INR ((x * old) mod new) / INR new)%R.
(** the sample at z, the border continued outwards *)
Definition sample_at (n : nat) (z : Z) : nat := Z.to_nat (Z.max 0 (Z.min z (Z.of_nat n - 1))).
Definition resized (w h w' h' : nat) (c : nat -> nat -> R) (x y : nat) : R :=
  sum (fun j => sum (fun i => nth j (kernel (distance h h' y)) 0 * nth i (kernel (distance w w' x)) 0 *
    c (sample_at w (Z.of_nat (before w w' x + i) - 1)) (sample_at h (Z.of_nat (before h h' y + j) - 1)))%R 4) 4.

(** ** resizing *)
Lemma Q2R_inject z : Q2R (inject_Z z) = IZR z.
Proof. unfold Q2R, inject_Z; cbn [Qnum Qden]; rewrite Rinv_1; ring. Qed.
Lemma frac_distance x w w' : 0 < w' -> Q2R (frac_pos x w w') = distance w w' x.
Proof.
  intros P; unfold frac_pos; rewrite map_floor by exact P; rewrite Q2R_minus, Q2R_mult, Q2R_div.
  2: { unfold qn, Qeq; cbn; lia. }
  unfold qn; rewrite !Q2R_inject, <- !INR_IZR_INZ; unfold distance.
  assert (N : INR w' <> 0%R) by (apply not_0_INR; lia).
  assert (E : (INR x * INR w = INR w' * INR (x * w / w') + INR ((x * w) mod w'))%R) by (rewrite <- !mult_INR, <- plus_INR; f_equal; apply Nat.div_mod; lia).
  apply (Rmult_eq_reg_r (INR w')); [|exact N]; unfold Rdiv; field_simplify; try exact N; lra.
Qed.
Lemma cubic_kernel_sum v0 v1 v2 v3 q : cubic_r v0 v1 v2 v3 q =
  (nth 0 (kernel (Q2R q)) 0 * v0 + nth 1 (kernel (Q2R q)) 0 * v1 + nth 2 (kernel (Q2R q)) 0 * v2 + nth 3 (kernel (Q2R q)) 0 * v3)%R.
Proof. unfold cubic_r, kernel; cbn [nth]; ring. Qed.
Lemma resize_double_ok sg im w h c w' h' : sched_ok sg -> Repr im w h c -> 0 < w -> 0 < h ->
  exists o, resize_double sg im w' h' = Ok o /\ Repr o w' h' (resized w h w' h' c).
Proof.
  intros Hg Rc Pw Ph; apply (resize_spec cubic_r (fun v => Ok v) 0%R sg im w h c w' h'); auto.
  intros x y X Y; unfold bicubicPolate; cbv beta zeta; rewrite !around_nth by lia; f_equal.
  rewrite !cubic_kernel_sum, !frac_distance by lia; unfold resized, sum; cbn [Nat.modulo Nat.div Nat.divmod fst snd Nat.sub].
  fold (before w w' x) (before h h' y).
  assert (T : forall n b j, tap n (Z.of_nat b + (Z.of_nat j - 1)) = sample_at n (Z.of_nat (b + j) - 1)) by (intros; unfold tap, sample_at; f_equal; lia).
  rewrite !T; ring.
Qed.
Lemma resized_ext w h w' h' c c' : 0 < w -> 0 < h -> (forall x y, x < w -> y < h -> c x y = c' x y) -> forall x y, resized w h w' h' c x y = resized w h w' h' c' x y.
Proof.
  intros Pw Ph E x y; unfold resized; apply sum_ext; intros j _; apply sum_ext; intros i _; f_equal; apply E; unfold sample_at; lia.
Qed.
Lemma kernel_one t : sum (fun i => nth i (kernel t) 0%R) 4 = 1%R.
Proof. unfold sum, kernel; cbn [nth]; ring. Qed.
Lemma resized_flat w h w' h' v x y : resized w h w' h' (fun _ _ => v) x y = v.
Proof.
  unfold resized; pose proof (kernel_one (distance w w' x)) as A; pose proof (kernel_one (distance h h' y)) as B; unfold sum in *.
  set (a := fun i => nth i (kernel (distance w w' x)) 0%R) in *; set (b := fun i => nth i (kernel (distance h h' y)) 0%R) in *; cbv beta in *.
  fold (a 0) (a 1) (a 2) (a 3) in A |- *; fold (b 0) (b 1) (b 2) (b 3) in B |- *.
  transitivity (v * (b 0%nat + b 1%nat + b 2%nat + b 3%nat) * (a 0%nat + a 1%nat + a 2%nat + a 3%nat))%R; [ring|].
  replace (b 0%nat + b 1%nat + b 2%nat + b 3%nat)%R with 1%R by lra; replace (a 0%nat + a 1%nat + a 2%nat + a 3%nat)%R with 1%R by lra; ring.
Qed.

(** ** C164  bicubic_resize *)
Lemma parse_size_defined t : parse_size t <> UB.
Proof. unfold parse_size, parse_int; destruct (from_chars _ _ _); discriminate. Qed.
Lemma pic_bicubic_double s sg p w h f w' h' : sched1_ok s -> sched_ok sg -> 0 < w -> 0 < h -> 0 < w' -> 0 < h' -> doubles p -> depicts p w h f ->
  exists q, pic_bicubic s sg w' h' p = Ok q /\ same_kind p q /\ depicts q w' h' (each (resized w h w' h') (channels p) f).
Proof.
  intros Hs Hg Pw Ph Pw' Ph' B D.
  destruct p as [im|t im|im|im]; cbn [doubles] in B; try tauto; destruct D as (g & Rg & Hg'); cbn [pic_bicubic channels].
  - destruct (resize_double_ok sg im w h g w' h' Hg Rg Pw Ph) as (o & -> & Ro); cbn [bind]; exists (GReal o); split; [reflexivity|]; split; [exact I|].
    exists (resized w h w' h' g); split; [exact Ro|]; intros x y X Y; cbn [each map seq]; f_equal; apply resized_ext; auto; intros a b Ha Hb; rewrite Hg' by auto; reflexivity.
  - destruct (each3 s 0%R [0%R; 0%R; 0%R] (fun q => resize_double sg q w' h') im w h g w' h' (fun k => resized w h w' h' (fun x y => nth k (g x y) 0%R))) as (o & -> & Ro); auto.
    { intros; apply Hg'; auto. }
    { intros k p _ Rp; apply (resize_double_ok sg p w h _ w' h' Hg Rp Pw Ph). }
    cbn [bind]; exists (CReal o); split; [reflexivity|]; split; [exact I|].
    eexists; split; [exact Ro|]; intros x y X Y; split; [|reflexivity]; cbn [each map seq]; f_equal; [|f_equal; [|f_equal]];
      apply resized_ext; auto; intros a b Ha Hb; rewrite (proj1 (Hg' a b Ha Hb)); reflexivity.
Qed.
Lemma before_lt w w' x : 0 < w -> x < w' -> before w w' x < w.
Proof. intros P X; unfold before; apply Nat.div_lt_upper_bound; nia. Qed.
Lemma pic_bicubic_int s sg p w h f w' h' : sched1_ok s -> sched_ok sg -> 0 < w -> 0 < h -> 0 < w' -> 0 < h' -> exact_type p -> ~ doubles p -> depicts p w h f ->
  (forall x y, x < w -> y < h -> Forall (fun v => Rabs v <= 2 ^ 24)%R (f x y)) ->
  exists q, pic_bicubic s sg w' h' p = Ok q /\ same_kind p q /\ depicts q w' h' (fun x y => f (before w w' x) (before h h' y)).
Proof.
  intros Hs Hg Pw Ph Pw' Ph' _ B D S.
  assert (SZ : forall z, (Rabs (IZR z) <= 2 ^ 24)%R -> (Z.abs z <= 2 ^ 24)%Z).
  { intros z; rewrite <- abs_IZR; assert (T : (2 ^ 24)%R = IZR (2 ^ 24)) by (rewrite (pow_IZR 2 24); reflexivity); rewrite T; apply le_IZR. }
  destruct p as [im|t im|im|im]; cbn [doubles] in B; try tauto; destruct D as (g & Rg & Hg'); cbn [pic_bicubic].
  - destruct (C78_integral_partial (lowest t) (highest t) sg im w h g w' h' Hg Rg Pw Ph) as (o & E & Ro).
    { intros x y X Y; destruct (Hg' x y X Y) as (Ef & Bf); split; [exact Bf|]; apply SZ; specialize (S x y X Y); rewrite Ef in S; inversion S; auto. }
    unfold resize_int; rewrite E; cbn [bind]; exists (GInt t o); split; [reflexivity|]; split; [reflexivity|].
    eexists; split; [exact Ro|]; intros x y X Y; apply Hg'; apply before_lt; auto.
  - destruct (each3 s 0%Z [0; 0; 0]%Z (fun q => resize_int sg (mkIty 8 false) q w' h') im w h g w' h' (fun k x y => nth k (g (before w w' x) (before h h' y)) 0%Z)) as (o & -> & Ro); auto.
    { intros; apply Hg'; auto. }
    { intros k p K Rp; apply (C78_integral_partial _ _ sg p w h _ w' h' Hg Rp Pw Ph).
      intros x y X Y; destruct (Hg' x y X Y) as (_ & L & Fa); assert (I : In (nth k (g x y) 0%Z) (g x y)) by (apply nth_In; lia).
      rewrite Forall_forall in Fa; apply Fa in I; cbn; lia. }
    cbn [bind]; exists (CByte o); split; [reflexivity|]; split; [exact I|].
    exists (fun x y => g (before w w' x) (before h h' y)); split.
    + eapply Repr_ext; [exact Ro|]; intros x y X Y; cbv beta; symmetry; apply length3; apply Hg'; apply before_lt; auto.
    + intros x y X Y; apply Hg'; apply before_lt; auto.
Qed.

(** a picture of doubles: every channel is interpolated with the cubic kernel, whatever the policy *)
Theorem C164_doubles {V F} load_file save_file as_pic (of_pic : rpic -> any V) s sg args i out wa ha rest (st : state V F) p w h f w' h' :
  sched1_ok s -> sched_ok sg -> args_filter args = i :: out :: wa :: ha :: rest -> parse_size wa = Ok w' -> parse_size ha = Ok h' ->
  stands load_file as_pic st i p -> 0 < w -> 0 < h -> 0 < w' -> 0 < h' -> doubles p -> depicts p w h f ->
  exists q, bicubic_command V F load_file save_file as_pic of_pic s sg args st = Ok (save_arg V F save_file st out (of_pic q)) /\
    same_kind p q /\ depicts q w' h' (each (resized w h w' h') (channels p) f).
Proof.
  intros Hs Hg Fa Ew Eh St Pw Ph Pw' Ph' B D; destruct (pic_bicubic_double s sg p w h f w' h') as (q & E & K & Dq); auto; exists q; split; [|auto].
  unfold bicubic_command; rewrite (pic_step load_file save_file as_pic of_pic 2 _ args st i out _ p Fa ltac:(cbn; lia) St); cbn [nth bind].
  rewrite Ew; cbn [bind]; rewrite Eh; cbn [bind]; rewrite E; reflexivity.
Qed.
Print Assumptions C164_doubles.

(** the kernel: a pixel that falls on a sample keeps its value, and an even area stays even *)
Theorem C164_kernel w h w' h' c x y : 0 < w -> 0 < h -> x < w' -> y < h' ->
  (forall u v, u * w' = x * w -> v * h' = y * h -> resized w h w' h' c x y = c u v) /\
  (forall v, (forall a b, a < w -> b < h -> c a b = v) -> resized w h w' h' c x y = v).
Proof.
  intros Pw Ph X Y; split.
  - intros u v U W; unfold resized.
    assert (Bx : before w w' x = u) by (unfold before; rewrite <- U; apply Nat.div_mul; lia); assert (By : before h h' y = v) by (unfold before; rewrite <- W; apply Nat.div_mul; lia).
    assert (Dx : distance w w' x = 0%R) by (unfold distance; rewrite <- U, Nat.mod_mul by lia; cbn [INR]; unfold Rdiv; ring).
    assert (Dy : distance h h' y = 0%R) by (unfold distance; rewrite <- W, Nat.mod_mul by lia; cbn [INR]; unfold Rdiv; ring).
    rewrite Bx, By, Dx, Dy; unfold sum, kernel; cbn [nth].
    assert (u < w) by nia; assert (v < h) by nia.
    replace (sample_at w (Z.of_nat (u + 1) - 1)) with u by (unfold sample_at; lia); replace (sample_at h (Z.of_nat (v + 1) - 1)) with v by (unfold sample_at; lia); ring.
  - intros v E; rewrite (resized_ext w h w' h' c (fun _ _ => v)) by auto; apply resized_flat.
Qed.
Print Assumptions C164_kernel.

(** the own size keeps the picture, of doubles or of small integers *)
Theorem C164_same_size {V F} load_file save_file as_pic (of_pic : rpic -> any V) s sg args i out wa ha rest (st : state V F) p w h f :
  sched1_ok s -> sched_ok sg -> args_filter args = i :: out :: wa :: ha :: rest -> parse_size wa = Ok w -> parse_size ha = Ok h ->
  stands load_file as_pic st i p -> 0 < w -> 0 < h -> exact_type p -> depicts p w h f -> (doubles p \/ forall x y, x < w -> y < h -> Forall (fun v => Rabs v <= 2 ^ 24)%R (f x y)) ->
  exists q, bicubic_command V F load_file save_file as_pic of_pic s sg args st = Ok (save_arg V F save_file st out (of_pic q)) /\ same_kind p q /\ depicts q w h f.
Proof.
  intros Hs Hg Fa Ew Eh St Pw Ph T D S.
  assert (K : exists q, pic_bicubic s sg w h p = Ok q /\ same_kind p q /\ depicts q w h f).
  { assert (C : doubles p \/ ~ doubles p) by (destruct p; cbn; auto); destruct C as [C|C].
    - destruct (pic_bicubic_double s sg p w h f w h) as (q & E & K & Dq); auto; exists q; split; [exact E|]; split; [exact K|].
      eapply depicts_ext; [exact Dq|]; intros x y X Y; rewrite <- (each_id (channels p) f x y) by (eapply depicts_length; eauto); unfold each; apply map_ext; intros k.
      apply (proj1 (C164_kernel w h w h (fun a b => nth k (f a b) 0%R) x y Pw Ph X Y) x y); reflexivity.
    - destruct S as [S|S]; [tauto|]; destruct (pic_bicubic_int s sg p w h f w h) as (q & E & K & Dq); auto; exists q; split; [exact E|]; split; [exact K|].
      eapply depicts_ext; [exact Dq|]; intros x y X Y; unfold before; rewrite !Nat.div_mul by lia; reflexivity. }
  destruct K as (q & E & K & Dq); exists q; split; [|auto].
  unfold bicubic_command; rewrite (pic_step load_file save_file as_pic of_pic 2 _ args st i out _ p Fa ltac:(cbn; lia) St); cbn [nth bind].
  rewrite Ew; cbn [bind]; rewrite Eh; cbn [bind]; rewrite E; reflexivity.
Qed.
Print Assumptions C164_same_size.

(** a picture of integers is not interpolated: every pixel is the sample before its position *)
Theorem C164_integers {V F} load_file save_file as_pic (of_pic : rpic -> any V) s sg args i out wa ha rest (st : state V F) p w h f w' h' :
  sched1_ok s -> sched_ok sg -> args_filter args = i :: out :: wa :: ha :: rest -> parse_size wa = Ok w' -> parse_size ha = Ok h' ->
  stands load_file as_pic st i p -> 0 < w -> 0 < h -> 0 < w' -> 0 < h' -> exact_type p -> ~ doubles p -> depicts p w h f ->
  (forall x y, x < w -> y < h -> Forall (fun v => Rabs v <= 2 ^ 24)%R (f x y)) ->
  exists q, bicubic_command V F load_file save_file as_pic of_pic s sg args st = Ok (save_arg V F save_file st out (of_pic q)) /\
    same_kind p q /\ depicts q w' h' (fun x y => f (before w w' x) (before h h' y)).
Proof.
  intros Hs Hg Fa Ew Eh St Pw Ph Pw' Ph' T B D S; destruct (pic_bicubic_int s sg p w h f w' h') as (q & E & K & Dq); auto; exists q; split; [|auto].
  unfold bicubic_command; rewrite (pic_step load_file save_file as_pic of_pic 2 _ args st i out _ p Fa ltac:(cbn; lia) St); cbn [nth bind].
  rewrite Ew; cbn [bind]; rewrite Eh; cbn [bind]; rewrite E; reflexivity.
Qed.
Print Assumptions C164_integers.

(** an argument is missing or an extent is not a number: nothing changes *)
Theorem C164_refused {V F} load_file save_file as_pic (of_pic : rpic -> any V) s sg args (st : state V F) :
  length (args_filter args) < 4 \/
  (exists i out wa ha rest, args_filter args = i :: out :: wa :: ha :: rest /\ ((exists e, parse_size wa = Throw e) \/ (exists e, parse_size ha = Throw e))) ->
  bicubic_command V F load_file save_file as_pic of_pic s sg args st = Ok st.
Proof.
  intros [L|(i & out & wa & ha & rest & Fa & E)]; [apply pic_few; exact L|].
  apply (pic_refused load_file save_file as_pic of_pic 2 _ args st i out _ Fa); right; cbn [nth].
  destruct E as [(e & ->)|(e & E)]; [exists e; reflexivity|]; rewrite E.
  destruct (parse_size wa) as [n|e'|] eqn:Ew; cbn [bind]; eauto.
  exfalso; revert Ew; apply parse_size_defined.
Qed.
Print Assumptions C164_refused.

(** 8-bit pictures: between 0 and 100 there is no 50, although the same picture of doubles has one *)
Theorem C164_integers_refuted : exists (st : state rpic unit) st1 st2 q1 q2 g1 g2,
  let args i o := [lit i; lit o; lit "4"; lit "1"] in
  let run := bicubic_command rpic unit none_load none_save see put seq0 grid in
  stands none_load see st (lit "$bytes") (GInt (mkIty 8 false) (mkImage [2; 1] [0; 100]%Z)) /\ stands none_load see st (lit "$doubles") (GReal (mkImage [2; 1] [0; 100]%R)) /\
  run (args "$bytes" "$a")%string st = Ok st1 /\ stands none_load see st1 (lit "$a") q1 /\ depicts q1 4 1 g1 /\ g1 1 0 = [0%R] /\
  run (args "$doubles" "$b")%string st = Ok st2 /\ stands none_load see st2 (lit "$b") q2 /\ depicts q2 4 1 g2 /\ g2 1 0 = [50%R].
Proof.
  set (f := fun (x _ : nat) => [INR (100 * x)]); set (ib := mkImage [2; 1] [0; 100]%Z); set (id := mkImage [2; 1] [0; 100]%R).
  set (st := stage [(lit "bytes", GInt (mkIty 8 false) ib); (lit "doubles", GReal id)]).
  assert (Sb : stands none_load see st (lit "$bytes") (GInt (mkIty 8 false) ib)) by (eexists; split; reflexivity).
  assert (Sd : stands none_load see st (lit "$doubles") (GReal id)) by (eexists; split; reflexivity).
  assert (Db : depicts (GInt (mkIty 8 false) ib) 2 1 f).
  { exists (fun x _ => Z.of_nat (100 * x)); split; [repeat split; intros [|[|x]] [|y] X Y; try lia; reflexivity|].
    intros x y X Y; unfold f; rewrite INR_IZR_INZ; split; [reflexivity|]; unfold lowest, highest; cbn [signed bits]; lia. }
  assert (Dd : depicts (GReal id) 2 1 f).
  { exists (fun x _ => INR (100 * x)); split; [|reflexivity]; repeat split; intros [|[|x]] [|y] X Y; try lia; cbn -[INR]; [reflexivity|]; f_equal; rewrite INR_IZR_INZ; reflexivity. }
  destruct (C164_integers none_load none_save see put seq0 grid [lit "$bytes"; lit "$a"; lit "4"; lit "1"] (lit "$bytes") (lit "$a") (lit "4") (lit "1") [] st _ 2 1 f 4 1
    sched1_seq0 sched_ok_grid eq_refl eq_refl eq_refl Sb) as (q1 & E1 & _ & D1); auto; [cbn; lia| |].
  { intros x y X Y; constructor; [|constructor]; rewrite Rabs_pos_eq by apply pos_INR.
    apply Rle_trans with (INR 100); [apply le_INR; lia|]; rewrite INR_IZR_INZ; cbn; lra. }
  destruct (C164_doubles none_load none_save see put seq0 grid [lit "$doubles"; lit "$b"; lit "4"; lit "1"] (lit "$doubles") (lit "$b") (lit "4") (lit "1") [] st _ 2 1 f 4 1
    sched1_seq0 sched_ok_grid eq_refl eq_refl eq_refl Sd) as (q2 & E2 & _ & D2); auto; [exact I|].
  exists st; do 2 eexists; exists q1, q2; do 2 eexists; cbv zeta.
  split; [exact Sb|]; split; [exact Sd|]; split; [exact E1|]; split; [apply stands_saved; reflexivity|]; split; [exact D1|]; split.
  { cbv beta; replace (before 2 4 1) with 0 by reflexivity; unfold f; rewrite Nat.mul_0_r; reflexivity. }
  split; [exact E2|]; split; [apply stands_saved; reflexivity|]; split; [exact D2|].
  cbn [channels each map seq]; f_equal; unfold resized.
  replace (distance 2 4 1) with (1 / 2)%R by (unfold distance; change ((1 * 2) mod 4) with 2; rewrite !INR_IZR_INZ; cbn; field).
  replace (distance 1 1 0) with 0%R by (unfold distance; cbn; field).
  unfold sum, kernel; cbn [nth]; change (before 2 4 1) with 0; change (before 1 1 0) with 0; cbn [Nat.add Z.of_nat Pos.of_succ_nat Pos.succ].
  repeat match goal with |- context [sample_at ?n ?z] => let v := eval vm_compute in (sample_at n z) in change (sample_at n z) with v end.
  unfold f; cbn [nth]; rewrite !INR_IZR_INZ; change (Z.of_nat (100 * 0)) with 0%Z; change (Z.of_nat (100 * 1)) with 100%Z; field.
Qed.
Print Assumptions C164_integers_refuted.

Example C164_case : exists st, bicubic_command rpic unit none_load none_save see put seq0 grid [lit "$p"; lit "par"; lit "$o"; lit "3"; lit "2"] (stage [(lit "p", tiny)]) = Ok st /\
  exists q, stands none_load see st (lit "$o") q /\ same_kind tiny q /\ depicts q 3 2 (fun x _ => if x <? 2 then [10%R] else [20%R]).
Proof.
  destruct (C164_integers none_load none_save see put seq0 grid [lit "$p"; lit "par"; lit "$o"; lit "3"; lit "2"] (lit "$p") (lit "$o") (lit "3") (lit "2") [] (stage [(lit "p", tiny)]) tiny 2 1 shown 3 2
    sched1_seq0 sched_ok_grid eq_refl eq_refl eq_refl) as (q & E & K & D); try lia; try exact (fun H => H); try exact tiny_depicts.
  - eexists; split; reflexivity.
  - cbn; lia.
  - intros x y X Y; constructor; [|constructor]; rewrite Rabs_pos_eq by (apply IZR_le; lia).
    apply Rle_trans with 20%R; [apply IZR_le; lia | cbn; lra].
  - eexists; split; [exact E|]; exists q; split; [apply stands_saved; reflexivity|]; split; [exact K|].
    eapply depicts_ext; [exact D|]; intros x y X Y; unfold before, shown; destruct x as [|[|[|x]]]; try lia; reflexivity.
Qed.

(** ** the octave and the keypoints *)
(** the argument [n] after the first two is given, or has its default *)
Definition given {A} (parse : str -> res A) (d : A) (rest : list str) (n : nat) (v : A) : Prop :=
  match nth_error rest n with Some t => parse t = Ok v | None => v = d end.
(** what the SIFT commands take: a grey picture of doubles or of 8-bit integers *)
Definition grey8 (p : rpic) : Prop := match p with GReal _ => True | GInt t _ => t = mkIty 8 false | _ => False end.
Definition plane (f : nat -> nat -> list R) (x y : nat) : R := nth 0 (f x y) 0%R.
Lemma optional_given {A} (parse : str -> res A) d rest n v : given parse d rest n v -> optional parse d rest n = Ok v.
Proof. unfold given, optional; destruct (nth_error rest n); intros ->; reflexivity. Qed.
Lemma elevate_ok p w h f : grey8 p -> depicts p w h f -> exists im, elevate p = Some im /\ Repr im w h (plane f).
Proof.
  intros G D; destruct p as [im|t im|im|im]; cbn [grey8] in G; try tauto; destruct D as (g & Rg & Hg); cbn [elevate].
  - exists im; split; [reflexivity|]; eapply Repr_ext; [exact Rg|]; intros x y X Y; unfold plane; rewrite Hg by auto; reflexivity.
  - subst t; cbn; eexists; split; [reflexivity|]; eapply Repr_ext; [apply (Repr_map IZR); exact Rg|]; intros x y X Y; unfold plane; rewrite (proj1 (Hg x y X Y)); reflexivity.
Qed.
Lemma elevate_none p : ~ grey8 p -> elevate p = None.
Proof.
  intros G; destruct p as [im|[b sg] im|im|im]; cbn [grey8 elevate bits signed] in *; try tauto; try reflexivity.
  destruct (Z.eqb_spec b 8) as [->|N]; [|reflexivity]; destruct sg; [reflexivity | tauto].
Qed.

Section Read.
  Context {V F : Type} (load_file : F -> str -> option (any V)) (save_file : F -> str -> any V -> option F).
  Variable as_pic : any V -> option rpic.
  Lemma stands_loads st i p : stands load_file as_pic st i p -> exists v, load V F load_file st i = Ok v /\ as_pic v = Some p.
  Proof. intros (v & L & A); exists v; unfold load; rewrite L; auto. Qed.
End Read.

(** ** C165  sift_generate_octave *)
Lemma Forall2_len {A B} (P : A -> B -> Prop) l r : Forall2 P l r -> length l = length r.
Proof. induction 1; cbn [length]; auto. Qed.
Lemma Forall2_at {A B} (P : A -> B -> Prop) l r n a b : Forall2 P l r -> nth_error l n = Some a -> nth_error r n = Some b -> P a b.
Proof.
  intros H; revert n; induction H as [|x y l r Q H IH]; intros [|n]; cbn [nth_error]; try discriminate; [|apply IH].
  intros Ea Eb; injection Ea as <-; injection Eb as <-; exact Q.
Qed.
Lemma octave_step {V F} load_file save_file as_pic (of_octave : list (image R) -> any V) parse_double s sg i out rest (st : state V F) p im levels sigma k :
  dollar out = true -> given parse_size 5 rest 0 levels -> given parse_double 1.6%R rest 1 sigma -> given parse_double (sqrt 2) rest 2 k ->
  stands load_file as_pic st i p -> elevate p = Some im ->
  octave_command V F load_file save_file as_pic of_octave parse_double s sg (i :: out :: rest) st =
    match generate_octave (difference_of_gaussian sg s) im levels sigma k with Ok o => Ok (save_arg V F save_file st out (of_octave o)) | Throw _ => Ok st | UB => UB end.
Proof.
  intros Do G0 G1 G2 St E; unfold octave_command; rewrite Do; cbn [negb].
  rewrite (optional_given _ _ _ _ _ G0), (optional_given _ _ _ _ _ G1), (optional_given _ _ _ _ _ G2); cbn [bind].
  destruct (stands_loads _ _ _ _ _ St) as (v & -> & Av); cbn [bind]; rewrite Av; cbn [need bind]; rewrite E; cbn [need bind].
  destruct (generate_octave _ _ _ _ _); reflexivity.
Qed.

(** the variable gets the differences of neighbouring levels, level j being the picture smoothed with the deviation sigma k^j and
    a kernel of 2 m j + 1 taps, m j the smallest integer that is not below twice the deviation *)
Theorem C165_octave {V F} load_file save_file as_pic (of_octave : list (image R) -> any V) parse_double s sg i out rest (st : state V F) p w h f levels sigma k m :
  sched1_ok s -> sched_ok sg -> dollar out = true ->
  given parse_size 5 rest 0 levels -> given parse_double 1.6%R rest 1 sigma -> given parse_double (sqrt 2) rest 2 k ->
  stands load_file as_pic st i p -> grey8 p -> depicts p w h f -> (Z.of_nat w <= 2 ^ 61)%Z -> (Z.of_nat h <= 2 ^ 61)%Z -> 2 <= levels ->
  (forall j, j < levels -> (sigma * k ^ j <> 0)%R /\ (INR (m j) - 1 < 2 * (sigma * k ^ j) <= INR (m j))%R /\ 2 * m j + 1 < w /\ 2 * m j + 1 < h /\ (Z.of_nat (2 * m j + 1) < 2 ^ 31)%Z) ->
  exists octave, octave_command V F load_file save_file as_pic of_octave parse_double s sg (i :: out :: rest) st = Ok (save_arg V F save_file st out (of_octave octave)) /\
    length octave = levels - 1 /\
    forall j, j < levels - 1 -> exists o, nth_error octave j = Some o /\
      let level j := smoothed (sigma * k ^ j) (sigma * k ^ j) (m j) (m j) (continued BMirror w h (plane f) 0) in
      Repr o w h (fun x y => level j (Z.of_nat x) (Z.of_nat y) - level (j + 1)%nat (Z.of_nat x) (Z.of_nat y))%R.
Proof.
  intros Hs Hg Do G0 G1 G2 St G D BW BH L M; destruct (elevate_ok p w h f G D) as (im & E & Rp).
  rewrite (octave_step load_file save_file as_pic of_octave parse_double s sg i out rest st p im levels sigma k); auto.
  unfold generate_octave; replace (levels <? 2) with false by lia.
  destruct (mapM_all (fun index => difference_of_gaussian sg s im (sigma * k ^ index) (sigma * k ^ (index + 1)))
    (fun j o => let level j := smoothed (sigma * k ^ j) (sigma * k ^ j) (m j) (m j) (continued BMirror w h (plane f) 0) in
      Repr o w h (fun x y => level j (Z.of_nat x) (Z.of_nat y) - level (j + 1)%nat (Z.of_nat x) (Z.of_nat y))%R) (seq 0 (levels - 1))) as (r & Er & Fr).
  { intros j J; apply in_seq in J; destruct (M j ltac:(lia)) as (N1 & S1 & A1 & B1 & C1); destruct (M (j + 1) ltac:(lia)) as (N2 & S2 & A2 & B2 & C2); cbv beta zeta.
    apply (C97_value sg s im w h (plane f) _ _ (m j) (m (j + 1)) Hg Hs Rp N1 N2 S1 S2); assumption. }
  rewrite Er; cbn [omp]; exists r; split; [reflexivity|]; pose proof (Forall2_len _ _ _ Fr) as LR; rewrite seq_length in LR; split; [symmetry; exact LR|].
  intros j J; destruct (nth_error r j) as [o|] eqn:Eo; [|apply nth_error_None in Eo; lia]; exists o; split; [reflexivity|].
  assert (Es : nth_error (seq 0 (levels - 1)) j = Some j) by (rewrite (nth_error_nth' _ 0) by (rewrite seq_length; auto); rewrite seq_nth by auto; reflexivity).
  exact (Forall2_at _ _ _ j j o Fr Es Eo).
Qed.
Print Assumptions C165_octave.

(** the defaults: from 28 x 28 pixels on four differences; smaller pictures end the program *)
Theorem C165_default {V F} load_file save_file as_pic (of_octave : list (image R) -> any V) parse_double s sg i out (st : state V F) p w h f :
  sched1_ok s -> sched_ok sg -> dollar out = true -> stands load_file as_pic st i p -> grey8 p -> depicts p w h f ->
  (Z.of_nat w <= 2 ^ 61)%Z -> (Z.of_nat h <= 2 ^ 61)%Z -> 0 < w -> 0 < h ->
  let run := octave_command V F load_file save_file as_pic of_octave parse_double s sg [i; out] st in
  (28 <= w /\ 28 <= h -> exists octave, run = Ok (save_arg V F save_file st out (of_octave octave)) /\ length octave = 4 /\
     forall j, j < 4 -> exists o, nth_error octave j = Some o /\
       let level j := let sd := (1.6 * sqrt 2 ^ j)%R in let m := nth j [4; 5; 7; 10; 13] 0 in smoothed sd sd m m (continued BMirror w h (plane f) 0) in
       Repr o w h (fun x y => level j (Z.of_nat x) (Z.of_nat y) - level (j + 1)%nat (Z.of_nat x) (Z.of_nat y))%R) /\
  (w < 28 \/ h < 28 -> run = UB).
Proof.
  intros Hs Hg Do St G D BW BH Pw Ph run; destruct (elevate_ok p w h f G D) as (im & E & Rp).
  assert (S : run = match generate_octave (difference_of_gaussian sg s) im 5 1.6 (sqrt 2) with Ok o => Ok (save_arg V F save_file st out (of_octave o)) | Throw _ => Ok st | UB => UB end)
    by (apply (octave_step load_file save_file as_pic of_octave parse_double s sg i out [] st p im 5 1.6%R (sqrt 2)); auto; reflexivity).
  rewrite S; split.
  - intros (W & H); destruct (C98_octave sg s im w h (plane f) Hg Hs Rp W H BW BH) as (o & -> & L & N); exists o; auto.
  - intros B; rewrite (proj2 (C98_octave_too_small sg s im w h (plane f) Hg Hs Rp Pw Ph B BW BH)); reflexivity.
Qed.
Print Assumptions C165_default.

(** fewer than two levels: an empty octave *)
Theorem C165_few_levels {V F} load_file save_file as_pic (of_octave : list (image R) -> any V) parse_double s sg i out rest (st : state V F) p w h f levels sigma k :
  dollar out = true -> given parse_size 5 rest 0 levels -> given parse_double 1.6%R rest 1 sigma -> given parse_double (sqrt 2) rest 2 k ->
  stands load_file as_pic st i p -> grey8 p -> depicts p w h f -> levels < 2 ->
  octave_command V F load_file save_file as_pic of_octave parse_double s sg (i :: out :: rest) st = Ok (save_arg V F save_file st out (of_octave [])).
Proof.
  intros Do G0 G1 G2 St G D L; destruct (elevate_ok p w h f G D) as (im & E & Rp).
  rewrite (octave_step load_file save_file as_pic of_octave parse_double s sg i out rest st p im levels sigma k); auto.
  unfold generate_octave; replace (levels <? 2) with true by lia; reflexivity.
Qed.
Print Assumptions C165_few_levels.

(** nothing changes when an argument is missing, the result is not a variable, a number cannot be read, there is no such picture, or
    it is of colours or of other integers; a policy is taken for an argument *)
Theorem C165_refused {V F} load_file save_file as_pic (of_octave : list (image R) -> any V) parse_double s sg args (st : state V F) :
  (forall t, parse_double t <> UB) ->
  length args < 2 \/
  (exists i out rest, args = i :: out :: rest /\
     (dollar out = false \/
      (exists t e, nth_error rest 0 = Some t /\ parse_size t = Throw e) \/ (exists n t e, (n = 1 \/ n = 2) /\ nth_error rest n = Some t /\ parse_double t = Throw e) \/
      (forall p, ~ stands load_file as_pic st i p) \/ (exists p, stands load_file as_pic st i p /\ ~ grey8 p))) ->
  octave_command V F load_file save_file as_pic of_octave parse_double s sg args st = Ok st.
Proof.
  intros PD [L|(i & out & rest & -> & H)]; [destruct args as [|a [|b l]]; try reflexivity; cbn in L; lia|].
  unfold octave_command; destruct (dollar out); [|reflexivity]; cbn [negb]; destruct H as [H|H]; [discriminate|].
  destruct (optional parse_size 5 rest 0) as [levels|e|] eqn:E0; cbn [bind caught]; [|reflexivity|exfalso; revert E0; unfold optional; destruct (nth_error rest 0); [apply parse_size_defined | discriminate]].
  destruct (optional parse_double 1.6%R rest 1) as [sigma|e|] eqn:E1; cbn [bind caught]; [|reflexivity|exfalso; revert E1; unfold optional; destruct (nth_error rest 1); [apply PD | discriminate]].
  destruct (optional parse_double (sqrt 2) rest 2) as [k|e|] eqn:E2; cbn [bind caught]; [|reflexivity|exfalso; revert E2; unfold optional; destruct (nth_error rest 2); [apply PD | discriminate]].
  destruct H as [(t & e & N & T)|[(n & t & e & [->| ->] & N & T)|[H|(p & St & NG)]]].
  - unfold optional in E0; rewrite N in E0; congruence.
  - unfold optional in E1; rewrite N in E1; congruence.
  - unfold optional in E2; rewrite N in E2; congruence.
  - unfold load; destruct (load_arg V F load_file st i) as [v|] eqn:Lv; cbn [need bind caught]; [|reflexivity].
    destruct (as_pic v) as [p|] eqn:Av; cbn [need bind caught]; [|reflexivity]; exfalso; apply (H p); exists v; auto.
  - destruct (stands_loads _ _ _ _ _ St) as (v & -> & Av); cbn [bind]; rewrite Av; cbn [need bind]; rewrite elevate_none by exact NG; reflexivity.
Qed.
Print Assumptions C165_refused.

Example C165_case : exists octave, octave_command (rpic + list (image R)) unit (fun _ _ => None) (fun _ _ _ => None) (fun v => match snd v with inl p => Some p | _ => None end)
    (fun o => (1, inr o)) (fun _ => Throw InvalidArgument) seq0 grid [lit "$p"; lit "$o"] (mkState _ unit [(lit "p", (0, inl (GReal (img 40 30 (fun x y => INR (x * y))))))] tt) =
  Ok (mkState _ unit [(lit "o", (1, inr octave)); (lit "p", (0, inl (GReal (img 40 30 (fun x y => INR (x * y))))))] tt) /\ length octave = 4.
Proof.
  set (f := fun x y => INR (x * y)).
  destruct (C165_default (F := unit) (fun _ _ => None) (fun _ _ _ => None) (fun v : any (rpic + list (image R)) => match snd v with inl p => Some p | _ => None end)
    (fun o => (1, inr o)) (fun _ => Throw InvalidArgument) seq0 grid (lit "$p") (lit "$o") (mkState _ unit [(lit "p", (0, inl (GReal (img 40 30 f))))] tt) (GReal (img 40 30 f)) 40 30 (fun x y => [f x y])
    sched1_seq0 sched_ok_grid eq_refl) as (A & _); try lia; try exact I.
  - eexists; split; reflexivity.
  - exists f; split; [apply img_Repr | reflexivity].
  - destruct (A ltac:(lia)) as (o & E & L & _); exists o; split; [exact E | exact L].
Qed.

(** ** C166  get_sift_potential_keypoint *)
(** the resampling function is not named, or is one of the two *)
Definition named (rest : list str) (n : nat) : Prop := match nth_error rest n with Some t => t = lit "bicubic" \/ t = lit "lanczos" | None => True end.
Definition name_of (rest : list str) : str := match nth_error rest 6 with Some t => t | None => lit "bicubic" end.
Lemma named_of rest : named rest 6 -> name_of rest = lit "bicubic" \/ name_of rest = lit "lanczos".
Proof. unfold named, name_of; destruct (nth_error rest 6); auto. Qed.
Lemma resampler_ok s sg name im w h c w' h' : sched1_ok s -> sched_ok sg -> name = lit "bicubic" \/ name = lit "lanczos" -> Repr im w h c -> 0 < w -> 0 < h ->
  (Z.of_nat w <= 2 ^ 31 - 3)%Z -> (Z.of_nat h <= 2 ^ 31 - 3)%Z -> (Z.of_nat w' <= 2 ^ 50)%Z -> (Z.of_nat h' <= 2 ^ 50)%Z ->
  exists o g, resampler s sg name im w' h' = Ok o /\ Repr o w' h' g /\ forall v, (forall x y, x < w -> y < h -> c x y = v) -> forall x y, x < w' -> y < h' -> g x y = v.
Proof.
  intros Hs Hg N Rc Pw Ph BW BH BW' BH'; destruct N as [->| ->]; unfold resampler.
  - change (eqs (lit "bicubic") (lit "lanczos")) with false; change (eqs (lit "bicubic") (lit "bicubic")) with true; cbv iota.
    destruct (resize_double_ok sg im w h c w' h' Hg Rc Pw Ph) as (o & E & Ro); exists o; eexists; split; [exact E|]; split; [exact Ro|].
    intros v Ev x y X Y; apply C164_kernel; auto.
  - change (eqs (lit "lanczos") (lit "lanczos")) with true; cbv iota.
    destruct (C99_value s im w h c w' h' 3 Hs Rc) as (o & E & Ro); try lia; exists o; eexists; split; [exact E|]; split; [exact Ro|].
    intros v Ev; assert (Rv : Repr im w h (fun _ _ => v)) by (eapply Repr_ext; [exact Rc | exact Ev]).
    destruct (C99_flat s im w h v w' h' 3 Hs Rv) as (o' & E' & Ro'); try lia; rewrite E in E'; injection E' as <-.
    intros x y X Y; destruct Ro as (_ & _ & R1); destruct Ro' as (_ & _ & R2); specialize (R1 x y X Y); specialize (R2 x y X Y); rewrite R1 in R2; injection R2 as R2; exact R2.
Qed.
Lemma resampler_shape s sg name n w h : sched1_ok s -> sched_ok sg -> name = lit "bicubic" \/ name = lit "lanczos" ->
  (Z.of_nat w <= 2 ^ 31 - 3)%Z -> (Z.of_nat h <= 2 ^ 31 - 3)%Z -> resample_shape (resampler s sg name) n w h.
Proof.
  intros Hs Hg N W H i im f I Wi Hi R; pose proof (quotient_le w i); pose proof (quotient_le h i).
  destruct (resampler_ok s sg name im _ _ f (w / 2 ^ i / 2) (h / 2 ^ i / 2) Hs Hg N R) as (o & g & E & Ro & _); try lia; exists o, g; auto.
Qed.
Lemma task_order_perm tasks policy : (forall pol l, Permutation (tasks pol l) l) -> forall l, Permutation (task_order tasks policy l) l.
Proof. intros P l; unfold task_order; destruct (_ || _); auto. Qed.

Section Search.
  Context {V F : Type} (load_file : F -> str -> option (any V)) (save_file : F -> str -> any V -> option F).
  Variable as_pic : any V -> option rpic.
  Variable of_points : list (nat * nat) -> any V.
  Variable parse_double : str -> res R.
  Variables (s : nat -> list nat) (sg : nat -> nat -> list (nat * nat)) (tasks : str -> list (nat * nat) -> list (nat * nat)) (owner : nat -> nat -> nat * nat -> nat).
  Lemma keypoint_step args i out rest (st : state V F) p im n levels sigma k contrast edge :
    args_filter args = i :: out :: rest -> dollar out = true ->
    given parse_size 4 rest 0 n -> given parse_size 5 rest 1 levels -> given parse_double 1.6%R rest 2 sigma -> given parse_double (sqrt 2) rest 3 k ->
    given parse_double 8%R rest 4 contrast -> given parse_double 12.1%R rest 5 edge -> stands load_file as_pic st i p -> elevate p = Some im ->
    keypoint_command V F load_file save_file as_pic of_points parse_double s sg tasks owner args st =
      match get_potential_keypoint (difference_of_gaussian sg s) (resampler s sg (name_of rest)) (task_order tasks (fst (scalar_args args))) owner im n levels sigma k contrast edge with
      | Ok points => Ok (save_arg V F save_file st out (of_points points)) | Throw _ => Ok st | UB => UB end.
  Proof.
    intros Fa Do G0 G1 G2 G3 G4 G5 St E; unfold keypoint_command; pose proof (scalar_args_spec args) as Sp; rewrite Fa in Sp; rewrite Sp; cbn [fst].
    rewrite Do; cbn [negb]; fold (name_of rest).
    rewrite (optional_given _ _ _ _ _ G0), (optional_given _ _ _ _ _ G1), (optional_given _ _ _ _ _ G2), (optional_given _ _ _ _ _ G3), (optional_given _ _ _ _ _ G4), (optional_given _ _ _ _ _ G5); cbn [bind].
    destruct (stands_loads _ _ _ _ _ St) as (v & -> & Av); cbn [bind]; rewrite Av; cbn [need bind]; rewrite E; cbn [need bind].
    destruct (get_potential_keypoint _ _ _ _ _ _ _ _ _ _ _); reflexivity.
  Qed.
End Search.

(** with octaves of at least 28 x 28 pixels the search is that of the extrema of every triple of differences in every octave; each
    refined location is mapped to the picture, and the points are stored *)
Theorem C166_search {V F} load_file save_file as_pic (of_points : list (nat * nat) -> any V) parse_double s sg tasks owner args i out rest (st : state V F) p w h f n contrast edge :
  sched1_ok s -> sched_ok sg -> (forall pol l, Permutation (tasks pol l) l) -> (forall oi si a b, owner oi si a = owner oi si b) ->
  args_filter args = i :: out :: rest -> dollar out = true -> named rest 6 ->
  given parse_size 4 rest 0 n -> given parse_size 5 rest 1 5 -> given parse_double 1.6%R rest 2 1.6%R -> given parse_double (sqrt 2) rest 3 (sqrt 2) ->
  given parse_double 8%R rest 4 contrast -> given parse_double 12.1%R rest 5 edge ->
  stands load_file as_pic st i p -> grey8 p -> depicts p w h f -> (Z.of_nat w <= 2 ^ 31 - 3)%Z -> (Z.of_nat h <= 2 ^ 31 - 3)%Z ->
  (forall j, j < n -> 28 <= w / 2 ^ j /\ 28 <= h / 2 ^ j) ->
  exists octaves results tasks', length octaves = n /\
    (forall j octave, nth_error octaves j = Some octave -> length octave = 4 /\ Forall (fun im => exists g, Repr im (w / 2 ^ j) (h / 2 ^ j) g) octave) /\
    (forall oi si, oi < n -> si < 2 -> exists octave a b c,
      nth_error octaves oi = Some octave /\ nth_error octave si = Some a /\ nth_error octave (si + 1) = Some b /\ nth_error octave (si + 2) = Some c /\
      find_local_extrema (owner oi si) a b c oi si contrast edge false = Ok (results (oi, si))) /\
    Permutation tasks' (pairs (seq 0 n) (fun _ => seq 0 2)) /\ (filter is_policy args = [] -> tasks' = pairs (seq 0 n) (fun _ => seq 0 2)) /\
    keypoint_command V F load_file save_file as_pic of_points parse_double s sg tasks owner args st =
      match mapM (fun kp : keypoint => mapping_point (snd kp) (w / 2 ^ fst (fst kp)) (h / 2 ^ fst (fst kp)) w h) (flat_map results tasks') with
      | Ok points => Ok (save_arg V F save_file st out (of_points points)) | Throw _ => Ok st | UB => UB end.
Proof.
  intros Hs Hg P OW Fa Do N G0 G1 G2 G3 G4 G5 St G D BW BH B; destruct (elevate_ok p w h f G D) as (im & E & Rp).
  rewrite (keypoint_step load_file save_file as_pic of_points parse_double s sg tasks owner args i out rest st p im n 5 1.6%R (sqrt 2) contrast edge); auto.
  set (ord := task_order tasks (fst (scalar_args args))); pose proof (task_order_perm tasks (fst (scalar_args args)) P) as PO; fold ord in PO.
  destruct (C58_safe (difference_of_gaussian sg s) (resampler s sg (name_of rest)) ord owner im w h (plane f) n 5 1.6 (sqrt 2) contrast edge) as (octaves & results & L & O & T & ->); auto; try lia.
  - apply gaussian_shape; auto; lia.
  - apply resampler_shape; auto; apply named_of; exact N.
  - unfold fits, two64; lia.
  - intros j J; specialize (B j J); lia.
  - exists octaves, results, (ord (pairs (seq 0 n) (fun _ => seq 0 2))); split; [exact L|]; split; [exact O|]; split; [exact T|]; split; [apply PO|]; split; [|reflexivity].
    intros NP; unfold ord, task_order; rewrite scalar_args_spec, NP; reflexivity.
Qed.
Print Assumptions C166_search.

(** an even picture has no keypoints: an empty list is stored *)
Lemma flat_octaves sg s resample n : sched_ok sg -> sched1_ok s -> forall im w h v,
  (forall im w h v, Repr im w h (fun _ _ => v) -> 28 <= w -> 28 <= h -> (Z.of_nat w <= 2 ^ 31 - 3)%Z -> (Z.of_nat h <= 2 ^ 31 - 3)%Z ->
     exists o, resample im (w / 2) (h / 2) = Ok o /\ Repr o (w / 2) (h / 2) (fun _ _ => v)) ->
  Repr im w h (fun _ _ => v) -> (Z.of_nat w <= 2 ^ 31 - 3)%Z -> (Z.of_nat h <= 2 ^ 31 - 3)%Z -> (forall j, j < n -> 28 <= w / 2 ^ j /\ 28 <= h / 2 ^ j) ->
  exists octaves, build_octaves (difference_of_gaussian sg s) resample n 5 1.6 (sqrt 2) im = Ok octaves /\
    forall j octave o, nth_error octaves j = Some octave -> In o octave -> Repr o (w / 2 ^ j) (h / 2 ^ j) (fun _ _ => 0%R).
Proof.
  intros Hg Hs; induction n as [|n IH]; intros im w h v RS R BW BH B; [exists []; split; [reflexivity|]; intros [|j] octave o E; discriminate|].
  pose proof (B 0 ltac:(lia)) as B0; cbn [Nat.pow] in B0; rewrite !Nat.div_1_r in B0.
  cbn [build_octaves]; rewrite (get_width_Repr _ _ _ _ R), (get_height_Repr _ _ _ _ R); cbn [bind]; replace ((w <? 20) || (h <? 20)) with false by lia.
  assert (G : exists octave, generate_octave (difference_of_gaussian sg s) im 5 1.6 (sqrt 2) = Ok octave /\ forall o, In o octave -> Repr o w h (fun _ _ => 0%R)).
  { unfold generate_octave; cbn [Nat.ltb Nat.leb Nat.sub].
    destruct (mapM_all (fun index => difference_of_gaussian sg s im (1.6 * sqrt 2 ^ index) (1.6 * sqrt 2 ^ (index + 1))) (fun _ o => Repr o w h (fun _ _ => 0%R)) (seq 0 4)) as (r & E & Fr).
    - intros i I; apply in_seq in I; cbv beta zeta; set (m1 := nth i [4; 5; 7; 10; 13] 0); set (m2 := nth (i + 1) [4; 5; 7; 10; 13] 0).
      assert (M : m1 <= 13 /\ m2 <= 13) by (clear - I; subst m1 m2; destruct i as [|[|[|[|]]]]; cbn; lia).
      pose proof (default_sizes i ltac:(lia)) as D1; pose proof (default_sizes (i + 1) ltac:(lia)) as D2; cbv zeta in D1, D2; fold m1 in D1; fold m2 in D2; clearbody m1 m2.
      apply (C97_flat sg s im w h v _ _ m1 m2 Hg Hs R (default_sd _) (default_sd _) D1 D2); clear D1 D2; lia.
    - exists r; split; [rewrite E; reflexivity|]; clear - Fr; intros o I; induction Fr as [|a b l r Q Fr IH]; cbn in I; [tauto|]; destruct I as [<-|I]; auto. }
  destruct G as (octave & -> & GO); cbn [bind].
  destruct (RS im w h v R) as (b & -> & Rb); try lia; cbn [bind].
  destruct (IH b (w / 2) (h / 2) v RS Rb) as (octaves & -> & HO); try lia.
  { intros j J; pose proof (B (S j) ltac:(lia)) as Bj; rewrite !halves; exact Bj. }
  cbn [bind]; exists (octave :: octaves); split; [reflexivity|]; intros [|j] oc o Eo Io; cbn [nth_error] in Eo.
  - injection Eo as <-; cbn [Nat.pow]; rewrite !Nat.div_1_r; auto.
  - rewrite <- !halves; eapply HO; eauto.
Qed.
Theorem C166_flat {V F} load_file save_file as_pic (of_points : list (nat * nat) -> any V) parse_double s sg tasks owner args i out rest (st : state V F) p w h f v n contrast edge :
  sched1_ok s -> sched_ok sg -> (forall pol l, Permutation (tasks pol l) l) -> (forall oi si a b, owner oi si a = owner oi si b) ->
  args_filter args = i :: out :: rest -> dollar out = true -> named rest 6 ->
  given parse_size 4 rest 0 n -> given parse_size 5 rest 1 5 -> given parse_double 1.6%R rest 2 1.6%R -> given parse_double (sqrt 2) rest 3 (sqrt 2) ->
  given parse_double 8%R rest 4 contrast -> given parse_double 12.1%R rest 5 edge -> (0 <= contrast)%R ->
  stands load_file as_pic st i p -> grey8 p -> depicts p w h f -> (forall x y, x < w -> y < h -> f x y = [v]) ->
  (Z.of_nat w <= 2 ^ 31 - 3)%Z -> (Z.of_nat h <= 2 ^ 31 - 3)%Z -> (forall j, j < n -> 28 <= w / 2 ^ j /\ 28 <= h / 2 ^ j) ->
  keypoint_command V F load_file save_file as_pic of_points parse_double s sg tasks owner args st = Ok (save_arg V F save_file st out (of_points [])).
Proof.
  intros Hs Hg P OW Fa Do N G0 G1 G2 G3 G4 G5 C0 St G D Fv BW BH B; destruct (elevate_ok p w h f G D) as (im & E & Rp).
  assert (Rv : Repr im w h (fun _ _ => v)) by (eapply Repr_ext; [exact Rp|]; intros x y X Y; unfold plane; rewrite Fv by auto; reflexivity).
  rewrite (keypoint_step load_file save_file as_pic of_points parse_double s sg tasks owner args i out rest st p im n 5 1.6%R (sqrt 2) contrast edge); auto.
  set (ord := task_order tasks (fst (scalar_args args))); pose proof (task_order_perm tasks (fst (scalar_args args)) P) as PO; fold ord in PO.
  apply named_of in N; set (name := name_of rest) in *.
  destruct (flat_octaves sg s (resampler s sg name) n Hg Hs im w h v) as (octaves & EO & HO); auto.
  { clear - Hs Hg N; intros im w h v R W H BW BH; destruct (resampler_ok s sg name im w h _ (w / 2) (h / 2) Hs Hg N R) as (o & g & E & Ro & K); try lia.
    exists o; split; [exact E|]; eapply Repr_ext; [exact Ro|]; intros x y X Y; apply (K v); auto. }
  destruct (get_potential_keypoint_eq (difference_of_gaussian sg s) (resampler s sg name) ord owner im w h n 5 1.6 (sqrt 2) contrast edge) as (octaves' & results & EO' & _ & T & ->).
  - apply dog_shape_keeps, gaussian_shape; auto; lia.
  - apply resample_shape_ok, resampler_shape; auto.
  - exists (plane f); exact Rp.
  - lia.
  - lia.
  - unfold fits, two64; lia.
  - exact PO.
  - exact OW.
  - intros j J; specialize (B j J); lia.
  - lia.
  - rewrite EO in EO'; injection EO' as <-.
    assert (Z : forall t, In t (ord (pairs (seq 0 n) (fun _ => seq 0 (5 - 3)))) -> results t = []).
    { intros (oi & si) It; apply (Permutation_in _ (PO _)), in_pairs in It; cbn [fst snd] in It; rewrite !in_seq in It.
      destruct (T oi si) as (octave & a & b & c & Eo & Ea & Eb & Ec & Ef); try lia.
      pose proof (quotient_le w oi); pose proof (quotient_le h oi); pose proof (B oi ltac:(lia)).
      destruct (C88_extrema (owner oi si) a b c (w / 2 ^ oi) (h / 2 ^ oi) (fun _ _ _ => 0%R) oi si contrast edge) as (px & _ & Ip & l & El & F2);
        try (eapply HO; [exact Eo | eapply nth_error_In; eauto]); try lia; auto.
      assert (px = []) as -> by (destruct px as [|(y, x) px]; [reflexivity|]; exfalso; destruct (proj1 (Ip x y) (or_introl eq_refl)) as (_ & X & _); rewrite Rabs_R0 in X; lra).
      inversion F2; subst l; rewrite Ef in El; injection El as ->; reflexivity. }
    replace (flat_map results (ord (pairs (seq 0 n) (fun _ => seq 0 (5 - 3))))) with (@nil keypoint); [reflexivity|].
    clear - Z; induction (ord _) as [|t l IH]; cbn [flat_map]; [reflexivity|]; rewrite Z by (left; auto); apply IH; intros; apply Z; right; auto.
Qed.
Print Assumptions C166_flat.

(** a picture with an octave below 28 pixels ends the program or is undefined; with the default four octaves, every picture below 224 *)
Theorem C166_small {V F} load_file save_file as_pic (of_points : list (nat * nat) -> any V) parse_double s sg tasks owner args i out rest (st : state V F) p w h f n contrast edge j :
  sched1_ok s -> sched_ok sg -> (forall pol l, Permutation (tasks pol l) l) ->
  args_filter args = i :: out :: rest -> dollar out = true -> named rest 6 ->
  given parse_size 4 rest 0 n -> given parse_size 5 rest 1 5 -> given parse_double 1.6%R rest 2 1.6%R -> given parse_double (sqrt 2) rest 3 (sqrt 2) ->
  given parse_double 8%R rest 4 contrast -> given parse_double 12.1%R rest 5 edge ->
  stands load_file as_pic st i p -> grey8 p -> depicts p w h f -> (Z.of_nat w <= 2 ^ 31 - 3)%Z -> (Z.of_nat h <= 2 ^ 31 - 3)%Z ->
  j < n -> w / 2 ^ j < 28 \/ h / 2 ^ j < 28 ->
  keypoint_command V F load_file save_file as_pic of_points parse_double s sg tasks owner args st = UB.
Proof.
  intros Hs Hg P Fa Do N G0 G1 G2 G3 G4 G5 St G D BW BH J B; destruct (elevate_ok p w h f G D) as (im & E & Rp).
  rewrite (keypoint_step load_file save_file as_pic of_points parse_double s sg tasks owner args i out rest st p im n 5 1.6%R (sqrt 2) contrast edge); auto.
  apply named_of in N; set (name := name_of rest) in *.
  pose proof (resampler_shape s sg name n w h Hs Hg N BW BH) as RS.
  set (bad := fun a => (20 <=? w / 2 ^ a) && (20 <=? h / 2 ^ a) && ((w / 2 ^ a <? 28) || (h / 2 ^ a <? 28))).
  destruct (existsb bad (seq 0 n)) eqn:X.
  - apply existsb_exists in X as (a & Ia & Xa); apply in_seq in Ia; unfold bad in Xa.
    rewrite (C98_search_ends sg s (resampler s sg name) _ owner im w h (plane f) n contrast edge a); auto; lia.
  - assert (All : forall a, a < n -> 20 <= w / 2 ^ a -> 20 <= h / 2 ^ a -> 28 <= w / 2 ^ a /\ 28 <= h / 2 ^ a).
    { intros a A W H; assert (bad a = false).
      { destruct (bad a) eqn:Ba; auto; assert (existsb bad (seq 0 n) = true) by (apply existsb_exists; exists a; split; [apply in_seq; lia | exact Ba]); congruence. }
      unfold bad in *; lia. }
    rewrite (C58_octaves (difference_of_gaussian sg s) (resampler s sg name) _ owner im w h (plane f) n 5 1.6 (sqrt 2) contrast edge j); auto.
    + apply gaussian_shape; auto; lia.
    + apply task_order_perm; exact P.
    + destruct (le_lt_dec 20 (w / 2 ^ j)); [|auto]; destruct (le_lt_dec 20 (h / 2 ^ j)); [|auto]; destruct (All j J); auto; lia.
Qed.
Print Assumptions C166_small.

(** nothing changes when an argument is missing, the result is not a variable, a number cannot be read, there is no such picture, or
    it is of colours or of other integers; an unknown name of the resampling function is found out after the first octave *)
Theorem C166_refused {V F} load_file save_file as_pic (of_points : list (nat * nat) -> any V) parse_double s sg tasks owner args (st : state V F) :
  (forall t, parse_double t <> UB) ->
  length (args_filter args) < 2 \/
  (exists i out rest, args_filter args = i :: out :: rest /\
     (dollar out = false \/
      (exists n t e, n < 2 /\ nth_error rest n = Some t /\ parse_size t = Throw e) \/ (exists n t e, 2 <= n < 6 /\ nth_error rest n = Some t /\ parse_double t = Throw e) \/
      (forall p, ~ stands load_file as_pic st i p) \/ (exists p, stands load_file as_pic st i p /\ ~ grey8 p))) ->
  keypoint_command V F load_file save_file as_pic of_points parse_double s sg tasks owner args st = Ok st.
Proof.
  intros PD H; unfold keypoint_command; rewrite scalar_args_spec; destruct H as [L|(i & out & rest & -> & H)].
  { destruct (args_filter args) as [|a [|b l]]; try reflexivity; cbn in L; lia. }
  destruct (dollar out); [|reflexivity]; cbn [negb]; destruct H as [H|H]; [discriminate|].
  assert (OS : forall d n, optional parse_size d rest n <> UB) by (intros d n; unfold optional; destruct (nth_error rest n); [apply parse_size_defined | discriminate]).
  assert (OD : forall d n, optional parse_double d rest n <> UB) by (intros d n; unfold optional; destruct (nth_error rest n); [apply PD | discriminate]).
  destruct (optional parse_size 4 rest 0) as [|e|] eqn:E0; cbn [bind caught]; [|reflexivity|exfalso; revert E0; apply OS].
  destruct (optional parse_size 5 rest 1) as [|e|] eqn:E1; cbn [bind caught]; [|reflexivity|exfalso; revert E1; apply OS].
  destruct (optional parse_double 1.6%R rest 2) as [|e|] eqn:E2; cbn [bind caught]; [|reflexivity|exfalso; revert E2; apply OD].
  destruct (optional parse_double (sqrt 2) rest 3) as [|e|] eqn:E3; cbn [bind caught]; [|reflexivity|exfalso; revert E3; apply OD].
  destruct (optional parse_double 8%R rest 4) as [|e|] eqn:E4; cbn [bind caught]; [|reflexivity|exfalso; revert E4; apply OD].
  destruct (optional parse_double 12.1%R rest 5) as [|e|] eqn:E5; cbn [bind caught]; [|reflexivity|exfalso; revert E5; apply OD].
  destruct H as [(n & t & e & Hn & N & T)|[(n & t & e & Hn & N & T)|[H|(p & St & NG)]]].
  - exfalso; destruct n as [|[|n]]; [unfold optional in E0; rewrite N in E0 | unfold optional in E1; rewrite N in E1 | lia]; congruence.
  - exfalso; destruct n as [|[|[|[|[|[|n]]]]]]; try lia; [unfold optional in E2; rewrite N in E2 | unfold optional in E3; rewrite N in E3 | unfold optional in E4; rewrite N in E4 | unfold optional in E5; rewrite N in E5]; congruence.
  - unfold load; destruct (load_arg V F load_file st i) as [v|] eqn:Lv; cbn [need bind caught]; [|reflexivity].
    destruct (as_pic v) as [p|] eqn:Av; cbn [need bind caught]; [|reflexivity]; exfalso; apply (H p); exists v; auto.
  - destruct (stands_loads _ _ _ _ _ St) as (v & -> & Av); cbn [bind]; rewrite Av; cbn [need bind]; rewrite elevate_none by exact NG; reflexivity.
Qed.
Print Assumptions C166_refused.
Theorem C166_unknown_name {V F} load_file save_file as_pic (of_points : list (nat * nat) -> any V) parse_double s sg tasks owner args i out rest (st : state V F) p w h f n contrast edge t :
  sched1_ok s -> sched_ok sg -> args_filter args = i :: out :: rest -> dollar out = true -> nth_error rest 6 = Some t -> t <> lit "bicubic" -> t <> lit "lanczos" ->
  given parse_size 4 rest 0 n -> given parse_size 5 rest 1 5 -> given parse_double 1.6%R rest 2 1.6%R -> given parse_double (sqrt 2) rest 3 (sqrt 2) ->
  given parse_double 8%R rest 4 contrast -> given parse_double 12.1%R rest 5 edge ->
  stands load_file as_pic st i p -> grey8 p -> depicts p w h f -> (Z.of_nat w <= 2 ^ 61)%Z -> (Z.of_nat h <= 2 ^ 61)%Z -> 28 <= w -> 28 <= h -> 0 < n ->
  keypoint_command V F load_file save_file as_pic of_points parse_double s sg tasks owner args st = Ok st.
Proof.
  intros Hs Hg Fa Do Nt N1 N2 G0 G1 G2 G3 G4 G5 St G D BW BH W H Pn; destruct (elevate_ok p w h f G D) as (im & E & Rp).
  rewrite (keypoint_step load_file save_file as_pic of_points parse_double s sg tasks owner args i out rest st p im n 5 1.6%R (sqrt 2) contrast edge); auto.
  unfold name_of; rewrite Nt; destruct n as [|n]; [lia|]; unfold get_potential_keypoint; rewrite (get_dim_Repr _ _ _ _ Rp); cbn [Nat.eqb negb build_octaves].
  rewrite (get_width_Repr _ _ _ _ Rp), (get_height_Repr _ _ _ _ Rp); cbn [bind]; replace ((w <? 20) || (h <? 20)) with false by lia.
  destruct (C98_octave sg s im w h (plane f) Hg Hs Rp W H BW BH) as (o & -> & _); cbn [bind].
  unfold resampler; destruct (eqs_spec t (lit "lanczos")); [tauto|]; destruct (eqs_spec t (lit "bicubic")); [tauto|]; reflexivity.
Qed.
Print Assumptions C166_unknown_name.

(** sessions whose variables are pictures, octaves and points *)
Definition shelf := (rpic + list (image R) + list (nat * nat))%type.
Definition on_shelf (p : rpic) : state shelf unit := mkState shelf unit [(lit "p", (0, inl (inl p)))] tt.
Definition shelf_pic (v : any shelf) : option rpic := match snd v with inl (inl p) => Some p | _ => None end.
Definition shelf_load (_ : unit) (_ : str) : option (any shelf) := None.
Definition shelf_save (_ : unit) (_ : str) (_ : any shelf) : option unit := None.
Definition no_double (_ : str) : res R := Throw InvalidArgument.
Definition octave_here := octave_command shelf unit shelf_load shelf_save shelf_pic (fun o => (1, inl (inr o))) no_double seq0 grid.
Definition keypoints_here := keypoint_command shelf unit shelf_load shelf_save shelf_pic (fun l => (2, inr l)) no_double seq0 grid (fun _ l => l) (fun _ _ _ => 0).
Lemma on_shelf_stands p : stands shelf_load shelf_pic (on_shelf p) (lit "$p") p.
Proof. eexists; split; reflexivity. Qed.
Lemma img_depicts w h f : depicts (GReal (img w h f)) w h (fun x y => [f x y]).
Proof. exists f; split; [apply img_Repr | reflexivity]. Qed.

(** the smallest kernel of the default octave does not fit a picture of 27 x 100: the program ends *)
Theorem C165_small_refuted : exists p, depicts p 27 100 (fun x y => [INR (x * y)]) /\ octave_here [lit "$p"; lit "$o"] (on_shelf p) = UB.
Proof.
  exists (GReal (img 27 100 (fun x y => INR (x * y)))); split; [apply img_depicts|].
  apply (C165_default shelf_load shelf_save shelf_pic (fun o => (1, inl (inr o))) no_double seq0 grid (lit "$p") (lit "$o") _ (GReal (img 27 100 (fun x y => INR (x * y)))) 27 100 (fun x y => [INR (x * y)])
    sched1_seq0 sched_ok_grid eq_refl (on_shelf_stands _) I (img_depicts _ _ _)); lia.
Qed.
Print Assumptions C165_small_refuted.

Theorem C166_small_refuted : exists p, depicts p 223 300 (fun x y => [INR (x * y)]) /\ keypoints_here [lit "$p"; lit "$k"] (on_shelf p) = UB.
Proof.
  exists (GReal (img 223 300 (fun x y => INR (x * y)))); split; [apply img_depicts|].
  apply (C166_small shelf_load shelf_save shelf_pic (fun l => (2, inr l)) no_double seq0 grid (fun _ l => l) (fun _ _ _ => 0) [lit "$p"; lit "$k"] (lit "$p") (lit "$k") [] _
    (GReal (img 223 300 (fun x y => INR (x * y)))) 223 300 (fun x y => [INR (x * y)]) 4 8%R 12.1%R 3); try reflexivity; try exact I; try lia;
    try exact sched1_seq0; try exact sched_ok_grid; try apply on_shelf_stands; try apply img_depicts; try (left; vm_compute; lia).
Qed.
Print Assumptions C166_small_refuted.

Example C166_case : keypoints_here [lit "$p"; lit "$k"] (on_shelf (GReal (img 224 300 (fun _ _ => 7%R)))) =
  Ok (mkState shelf unit [(lit "k", (2, inr [])); (lit "p", (0, inl (inl (GReal (img 224 300 (fun _ _ => 7%R))))))] tt).
Proof.
  unfold keypoints_here.
  rewrite (C166_flat shelf_load shelf_save shelf_pic (fun l => (2, inr l)) no_double seq0 grid (fun _ l => l) (fun _ _ _ => 0) [lit "$p"; lit "$k"] (lit "$p") (lit "$k") [] _
    (GReal (img 224 300 (fun _ _ => 7%R))) 224 300 (fun x y => [7%R]) 7%R 4 8%R 12.1%R); try reflexivity; try exact I; try lia; try lra;
    try exact sched1_seq0; try exact sched_ok_grid; try apply on_shelf_stands; try apply img_depicts; try (intros; apply Permutation_refl).
  intros i J; destruct i as [|[|[|[|]]]]; try lia; vm_compute; lia.
Qed.
