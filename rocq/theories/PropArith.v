(** PropArith.v - add, subtract, abs, max, min, manhattan_distance, the planes and the conversions, as commands: C145 to C150. *)
From Coq Require Import ZifyBool ZifyNat Ascii String QArith Qround Qabs.
From Verif Require Import Base ImageModel ImageFacts ImageProofs PixelModel PixelProofs PropPixel ReduceModel ReduceProofs PropReduce CliModel CliProofs PipeProofs PropCli
  CommandModel CommandProofs PropCommand PropCommand2 ArithModel ArithProofs.
Open Scope nat_scope.
Ltac Zify.zify_post_hook ::= Z.div_mod_to_equations.

(** the argument [a] stands for the value [p]: a variable, or a file *)
Definition shows {V F} load_file (as_pic : any V -> option pic) (st : state V F) (a : str) (p : pic) : Prop :=
  exists v, load_arg V F load_file st a = Some v /\ as_pic v = Some p.
(** two arguments that do not stand for the same variable *)
Definition apart (a b : str) : Prop := var_of a <> var_of b.
(** [z] is what a type of so many bits makes of the number [x] *)
Definition wraps_to (t : ity) (x z : Z) : Prop := in_type t z /\ (z mod 2 ^ bits t = x mod 2 ^ bits t)%Z.
Lemma conv_wraps t x : (2 <= bits t)%Z -> wraps_to t x (conv t x).
Proof. intros B; split; [apply in_type_holds, conv_holds, B | apply conv_cong, B]. Qed.
(** no overflow of int or a longer signed type *)
Definition no_overflow (t : ity) (f : Z -> Z -> Z) (x y : image Z) : Prop :=
  signed t = false \/ (bits t < 32)%Z \/ forall i a b, nth_error (pix x) i = Some a -> nth_error (pix y) i = Some b -> in_type t (f a b).
Lemma no_overflow_at t f x y i a b : no_overflow t f x y -> nth_error (pix x) i = Some a -> nth_error (pix y) i = Some b -> easy t \/ holds t (f a b).
Proof. unfold easy; intros [H|[H|H]] Ha Hb; auto; right; apply in_type_holds; eauto. Qed.
(** a pixel of three bytes *)
Definition byte3 (p : list Z) : Prop := length p = 3 /\ Forall (fun c => 0 <= c < 256)%Z p.

Section Load.
  Context {V F : Type} (load_file : F -> str -> option (any V)) (save_file : F -> str -> any V -> option F).
  Variable as_pic : any V -> option pic.
  Variable of_pic : pic -> any V.
  Lemma two_step op args st i1 i2 out rest a b : args_filter args = i1 :: i2 :: out :: rest ->
    shows load_file as_pic st i1 a -> shows load_file as_pic st i2 b ->
    two_command V F load_file save_file as_pic of_pic op args st =
      match op a b with Ok o => Ok (save_arg V F save_file st out (of_pic o)) | Throw _ => Ok st | UB => UB end.
  Proof.
    intros Fa (v & Lv & Av) (w & Lw & Aw); unfold two_command, load; rewrite Fa, Lv; cbn [need bind]; rewrite Av; cbn [need bind]; rewrite Lw; cbn [need bind].
    rewrite Aw; cbn [need bind]; destruct (op a b); reflexivity.
  Qed.
  Lemma one_step op args st i out rest a : args_filter args = i :: out :: rest -> shows load_file as_pic st i a ->
    one_command V F load_file save_file as_pic of_pic op args st =
      match op (extract_policy args) a with Ok o => Ok (save_arg V F save_file st out (of_pic o)) | Throw _ => Ok st | UB => UB end.
  Proof.
    intros Fa (v & Lv & Av); unfold one_command, transform_command, load; rewrite Fa; cbn [length Nat.ltb Nat.leb bind]; rewrite Lv; cbn [need bind].
    rewrite Av; cbn [need bind]; destruct (op _ a); reflexivity.
  Qed.
  Lemma shows_saved st a p : (forall p, as_pic (of_pic p) = Some p) -> dollar a = true -> shows load_file as_pic (save_arg V F save_file st a (of_pic p)) a p.
  Proof. intros A D; exists (of_pic p); split; [apply load_saved, D | apply A]. Qed.
  Lemma shows_other st a p q b : dollar a = true -> apart b a -> shows load_file as_pic st b q -> shows load_file as_pic (save_arg V F save_file st a p) b q.
  Proof. intros D N (v & L & A); exists v; split; [rewrite load_other; auto | exact A]. Qed.
End Load.

(** ** C145  add and subtract *)
Theorem C145_add {V F} load_file save_file as_pic (of_pic : pic -> any V) args i1 i2 out rest t x y (st : state V F) :
  args_filter args = i1 :: i2 :: out :: rest -> shows load_file as_pic st i1 (PInt t x) -> shows load_file as_pic st i2 (PInt t y) ->
  wf x -> wf y -> dims x = dims y -> (2 <= bits t)%Z -> no_overflow t Z.add x y ->
  exists o, add_command V F load_file save_file as_pic of_pic args st = Ok (save_arg V F save_file st out (of_pic (PInt t o)))
    /\ wf o /\ dims o = dims x
    /\ forall i a b, nth_error (pix x) i = Some a -> nth_error (pix y) i = Some b -> exists z, nth_error (pix o) i = Some z /\ wraps_to t (a + b) z.
Proof.
  intros Fa S1 S2 Wx Wy D B N; unfold add_command; rewrite (two_step _ _ _ _ _ _ _ _ _ _ _ _ _ Fa S1 S2); unfold pic_add, pic_op.
  rewrite not_bool, same_ity_refl by exact B; cbn [orb].
  rewrite (image_op_ok (sum_elem t) (fun a b => conv t (a + b))); auto.
  2:{ intros i a b Ha Hb; apply sum_elem_ok; auto; eapply (no_overflow_at t Z.add); eauto. }
  cbn [bind]; eexists; split; [reflexivity|]; split; [apply image_op_wf; auto|]; split; [reflexivity|].
  intros i a b Ha Hb; cbn [pix]; rewrite (image_op_pix (fun a b => conv t (a + b)) _ _ _ _ _ Ha Hb); eexists; split; [reflexivity | apply conv_wraps, B].
Qed.
Print Assumptions C145_add.
Theorem C145_subtract {V F} load_file save_file as_pic (of_pic : pic -> any V) args i1 i2 out rest t x y (st : state V F) :
  args_filter args = i1 :: i2 :: out :: rest -> shows load_file as_pic st i1 (PInt t x) -> shows load_file as_pic st i2 (PInt t y) ->
  wf x -> wf y -> dims x = dims y -> (2 <= bits t)%Z -> no_overflow t Z.sub x y ->
  exists o, subtract_command V F load_file save_file as_pic of_pic args st = Ok (save_arg V F save_file st out (of_pic (PInt t o)))
    /\ wf o /\ dims o = dims x
    /\ forall i a b, nth_error (pix x) i = Some a -> nth_error (pix y) i = Some b -> exists z, nth_error (pix o) i = Some z /\ wraps_to t (a - b) z.
Proof.
  intros Fa S1 S2 Wx Wy D B N; unfold subtract_command; rewrite (two_step _ _ _ _ _ _ _ _ _ _ _ _ _ Fa S1 S2); unfold pic_sub, pic_op.
  rewrite not_bool, same_ity_refl by exact B; cbn [orb].
  rewrite (image_op_ok (minus_elem t) (fun a b => conv t (a - b))); auto.
  2:{ intros i a b Ha Hb; apply minus_elem_ok; auto; eapply (no_overflow_at t Z.sub); eauto. }
  cbn [bind]; eexists; split; [reflexivity|]; split; [apply image_op_wf; auto|]; split; [reflexivity|].
  intros i a b Ha Hb; cbn [pix]; rewrite (image_op_pix (fun a b => conv t (a - b)) _ _ _ _ _ Ha Hb); eexists; split; [reflexivity | apply conv_wraps, B].
Qed.
Print Assumptions C145_subtract.
(** a sum or a difference that an int or a longer signed type does not hold is undefined *)
Theorem C145_overflow {V F} load_file save_file as_pic (of_pic : pic -> any V) args i1 i2 out rest t x y (st : state V F) i a b :
  args_filter args = i1 :: i2 :: out :: rest -> shows load_file as_pic st i1 (PInt t x) -> shows load_file as_pic st i2 (PInt t y) ->
  wf x -> wf y -> dims x = dims y -> signed t = true -> (32 <= bits t)%Z -> nth_error (pix x) i = Some a -> nth_error (pix y) i = Some b ->
  (~ in_type t (a + b) -> add_command V F load_file save_file as_pic of_pic args st = UB)
  /\ (~ in_type t (a - b) -> subtract_command V F load_file save_file as_pic of_pic args st = UB).
Proof.
  intros Fa S1 S2 Wx Wy D Sg B Ha Hb; unfold add_command, subtract_command; rewrite !(two_step _ _ _ _ _ _ _ _ _ _ _ _ _ Fa S1 S2); unfold pic_add, pic_sub, pic_op.
  rewrite not_bool, same_ity_refl by lia; cbn [orb]; unfold image_op; rewrite <- D, size_eqb_same.
  assert (L : length (pix x) = length (pix y)) by (unfold wf in *; congruence).
  split; intros N; rewrite in_type_holds in N; unfold holds in N; rewrite (transform2M_UB _ (pix x) (pix y) i a b); auto.
  - unfold sum_elem, plus_elem; cbn [bind]; rewrite Sg; replace (32 <=? bits t)%Z with true by (symmetry; apply Z.leb_le; exact B); cbn [andb].
    destruct (Z.leb_spec (lowest t) (a + b)), (Z.leb_spec (a + b) (highest t)); cbn; auto; exfalso; apply N; split; auto.
  - intros; apply sum_elem_total.
  - unfold minus_elem; rewrite Sg; replace (32 <=? bits t)%Z with true by (symmetry; apply Z.leb_le; exact B); cbn [andb].
    destruct (Z.leb_spec (lowest t) (a - b)), (Z.leb_spec (a - b) (highest t)); cbn; auto; exfalso; apply N; split; auto.
  - intros; apply minus_elem_total.
Qed.
Print Assumptions C145_overflow.
(** coloured pictures: each channel is added and subtracted modulo 256 *)
Definition channels_of (f : Z -> Z -> Z) (a b c : list Z) : Prop :=
  length c = 3 /\ forall k u v, nth_error a k = Some u -> nth_error b k = Some v -> nth_error c k = Some ((f u v) mod 256)%Z.
Lemma byte3_inv p : byte3 p -> exists a b c, p = [a; b; c].
Proof. intros [L _]; apply length3, L. Qed.
Theorem C145_rgb {V F} load_file save_file as_pic (of_pic : pic -> any V) args i1 i2 out rest x y (st : state V F) :
  args_filter args = i1 :: i2 :: out :: rest -> shows load_file as_pic st i1 (PRgb x) -> shows load_file as_pic st i2 (PRgb y) ->
  wf x -> wf y -> dims x = dims y -> Forall byte3 (pix x) -> Forall byte3 (pix y) ->
  exists s d, add_command V F load_file save_file as_pic of_pic args st = Ok (save_arg V F save_file st out (of_pic (PRgb s)))
    /\ subtract_command V F load_file save_file as_pic of_pic args st = Ok (save_arg V F save_file st out (of_pic (PRgb d)))
    /\ wf s /\ dims s = dims x /\ wf d /\ dims d = dims x
    /\ forall i a b, nth_error (pix x) i = Some a -> nth_error (pix y) i = Some b ->
         (exists c, nth_error (pix s) i = Some c /\ channels_of Z.add a b c) /\ (exists c, nth_error (pix d) i = Some c /\ channels_of Z.sub a b c).
Proof.
  intros Fa S1 S2 Wx Wy D Fx Fy; unfold add_command, subtract_command; rewrite !(two_step _ _ _ _ _ _ _ _ _ _ _ _ _ Fa S1 S2); unfold pic_add, pic_sub, pic_op.
  pose (ch3 f (a b : list Z) := [u8 (f (nth 0 a 0) (nth 0 b 0)); u8 (f (nth 1 a 0) (nth 1 b 0)); u8 (f (nth 2 a 0) (nth 2 b 0))]%Z).
  rewrite Forall_forall in Fx, Fy.
  assert (G : forall i a b, nth_error (pix x) i = Some a -> nth_error (pix y) i = Some b -> rgb_add a b = Ok (ch3 Z.add a b) /\ rgb_sub a b = Ok (ch3 Z.sub a b)
     /\ channels_of Z.add a b (ch3 Z.add a b) /\ channels_of Z.sub a b (ch3 Z.sub a b)).
  { intros i a b Ha Hb; apply nth_error_In in Ha, Hb; apply Fx, byte3_inv in Ha as (a0 & a1 & a2 & ->); apply Fy, byte3_inv in Hb as (b0 & b1 & b2 & ->).
    split; [unfold rgb_add, ch3; cbn; rewrite (Z.add_comm b0), (Z.add_comm b1), (Z.add_comm b2); reflexivity|]; split; [reflexivity|].
    split; (split; [reflexivity|]; intros [|[|[|k]]] u v Hu Hv; cbn [nth_error] in Hu, Hv; try (destruct k; discriminate); injection Hu as <-; injection Hv as <-; reflexivity). }
  rewrite (image_op_ok rgb_add (ch3 Z.add)) by (auto; intros i a b Ha Hb; apply (G i a b Ha Hb)).
  rewrite (image_op_ok rgb_sub (ch3 Z.sub)) by (auto; intros i a b Ha Hb; apply (G i a b Ha Hb)); cbn [bind].
  eexists _, _; split; [reflexivity|]; split; [reflexivity|]; repeat (split; [first [reflexivity | apply image_op_wf; auto]|]).
  intros i a b Ha Hb; cbn [pix]; rewrite (image_op_pix (ch3 Z.add) _ _ _ _ _ Ha Hb), (image_op_pix (ch3 Z.sub) _ _ _ _ _ Ha Hb).
  split; eexists; (split; [reflexivity | apply (G i a b Ha Hb)]).
Qed.
Print Assumptions C145_rgb.
(** pictures of doubles *)
Theorem C145_double {V F} load_file save_file as_pic (of_pic : pic -> any V) args i1 i2 out rest x y (st : state V F) :
  args_filter args = i1 :: i2 :: out :: rest -> shows load_file as_pic st i1 (PDbl x) -> shows load_file as_pic st i2 (PDbl y) ->
  wf x -> wf y -> dims x = dims y ->
  exists s d, add_command V F load_file save_file as_pic of_pic args st = Ok (save_arg V F save_file st out (of_pic (PDbl s)))
    /\ subtract_command V F load_file save_file as_pic of_pic args st = Ok (save_arg V F save_file st out (of_pic (PDbl d)))
    /\ wf s /\ dims s = dims x /\ wf d /\ dims d = dims x
    /\ forall i a b, nth_error (pix x) i = Some a -> nth_error (pix y) i = Some b ->
         nth_error (pix s) i = Some (a + b)%Q /\ nth_error (pix d) i = Some (a - b)%Q.
Proof.
  intros Fa S1 S2 Wx Wy D; unfold add_command, subtract_command; rewrite !(two_step _ _ _ _ _ _ _ _ _ _ _ _ _ Fa S1 S2); unfold pic_add, pic_sub, pic_op.
  rewrite (image_op_ok (fun p q => Ok (p + q)%Q) Qplus), (image_op_ok (fun p q => Ok (p - q)%Q) Qminus) by auto; cbn [bind].
  eexists _, _; split; [reflexivity|]; split; [reflexivity|]; repeat (split; [first [reflexivity | apply image_op_wf; auto]|]).
  intros i a b Ha Hb; cbn [pix]; rewrite (image_op_pix Qplus _ _ _ _ _ Ha Hb), (image_op_pix Qminus _ _ _ _ _ Ha Hb); auto.
Qed.
Print Assumptions C145_double.
(** subtracting what was added gives the picture back *)
Theorem C145_restores {V F} load_file save_file as_pic (of_pic : pic -> any V) args args' i1 i2 mid out rest rest' t x y (st : state V F) :
  (forall p, as_pic (of_pic p) = Some p) -> args_filter args = i1 :: i2 :: mid :: rest -> args_filter args' = mid :: i2 :: out :: rest' ->
  dollar mid = true -> apart i2 mid -> shows load_file as_pic st i1 (PInt t x) -> shows load_file as_pic st i2 (PInt t y) ->
  wf x -> wf y -> dims x = dims y -> (2 <= bits t)%Z -> Forall (in_type t) (pix x) -> no_overflow t Z.add x y ->
  exists st1, add_command V F load_file save_file as_pic of_pic args st = Ok st1
    /\ subtract_command V F load_file save_file as_pic of_pic args' st1 = Ok (save_arg V F save_file st1 out (of_pic (PInt t x))).
Proof.
  intros A Fa Fa' Dm Ap S1 S2 Wx Wy D B Ix N; unfold add_command, subtract_command; rewrite (two_step _ _ _ _ _ _ _ _ _ _ _ _ _ Fa S1 S2).
  unfold pic_add, pic_op; rewrite not_bool, same_ity_refl by exact B; cbn [orb]; rewrite Forall_forall in Ix.
  destruct (image_op_undo (sum_elem t) (minus_elem t) (fun a b => conv t (a + b)) (fun a b => conv t (a - b)) x y) as (o & E & E'); auto.
  - intros i a b Ha Hb; pose proof (no_overflow_at t Z.add _ _ _ _ _ N Ha Hb) as P; pose proof (Ix a (nth_error_In _ _ Ha)) as Ia; rewrite in_type_holds in Ia.
    split; [apply sum_elem_ok; auto|].
    assert (C : conv t (conv t (a + b) - b) = a).
    { apply conv_back; auto; rewrite Zminus_mod, conv_cong, <- Zminus_mod by exact B; f_equal; lia. }
    split; [|exact C]; apply minus_elem_ok; [exact B|]; destruct P as [P|P]; [left; exact P|]; right; rewrite conv_id by (auto; lia).
    replace (a + b - b)%Z with a by lia; exact Ia.
  - rewrite E; cbn [bind]; eexists; split; [reflexivity|].
    assert (T1 : shows load_file as_pic (save_arg V F save_file st mid (of_pic (PInt t o))) mid (PInt t o)) by (apply shows_saved; auto).
    assert (T2 : shows load_file as_pic (save_arg V F save_file st mid (of_pic (PInt t o))) i2 (PInt t y)) by (apply shows_other; auto).
    rewrite (two_step _ _ _ _ _ _ _ _ _ _ _ _ _ Fa' T1 T2); unfold pic_sub, pic_op; rewrite not_bool, same_ity_refl by exact B; cbn [orb].
    rewrite E'; reflexivity.
Qed.
Print Assumptions C145_restores.
Theorem C145_restores_rgb {V F} load_file save_file as_pic (of_pic : pic -> any V) args args' i1 i2 mid out rest rest' x y (st : state V F) :
  (forall p, as_pic (of_pic p) = Some p) -> args_filter args = i1 :: i2 :: mid :: rest -> args_filter args' = mid :: i2 :: out :: rest' ->
  dollar mid = true -> apart i2 mid -> shows load_file as_pic st i1 (PRgb x) -> shows load_file as_pic st i2 (PRgb y) ->
  wf x -> wf y -> dims x = dims y -> Forall byte3 (pix x) -> Forall byte3 (pix y) ->
  exists st1, add_command V F load_file save_file as_pic of_pic args st = Ok st1
    /\ subtract_command V F load_file save_file as_pic of_pic args' st1 = Ok (save_arg V F save_file st1 out (of_pic (PRgb x))).
Proof.
  intros A Fa Fa' Dm Ap S1 S2 Wx Wy D Fx Fy; unfold add_command, subtract_command; rewrite (two_step _ _ _ _ _ _ _ _ _ _ _ _ _ Fa S1 S2).
  unfold pic_add, pic_op; rewrite Forall_forall in Fx, Fy.
  pose (ch3 f (a b : list Z) := [u8 (f (nth 0 a 0) (nth 0 b 0)); u8 (f (nth 1 a 0) (nth 1 b 0)); u8 (f (nth 2 a 0) (nth 2 b 0))]%Z).
  destruct (image_op_undo rgb_add rgb_sub (ch3 Z.add) (ch3 Z.sub) x y) as (o & E & E'); auto.
  - intros i a b Ha Hb; apply nth_error_In in Ha, Hb; apply Fx in Ha; apply Fy, byte3_inv in Hb as (b0 & b1 & b2 & ->).
    destruct (byte3_inv _ Ha) as (a0 & a1 & a2 & ->); destruct Ha as [_ Ha]; inversion Ha as [|? ? H0 Ha1]; subst; inversion Ha1 as [|? ? H1 Ha2]; subst; inversion Ha2 as [|? ? H2 _]; subst.
    split; [unfold rgb_add, ch3; cbn; rewrite (Z.add_comm b0), (Z.add_comm b1), (Z.add_comm b2); reflexivity|]; split; [reflexivity|].
    assert (C : forall p q, (0 <= p < 256)%Z -> u8 (u8 (p + q) - q) = p) by (intros p q Hp; unfold u8; lia).
    unfold ch3; cbn [nth]; rewrite !C by auto; reflexivity.
  - rewrite E; cbn [bind]; eexists; split; [reflexivity|].
    assert (T1 : shows load_file as_pic (save_arg V F save_file st mid (of_pic (PRgb o))) mid (PRgb o)) by (apply shows_saved; auto).
    assert (T2 : shows load_file as_pic (save_arg V F save_file st mid (of_pic (PRgb o))) i2 (PRgb y)) by (apply shows_other; auto).
    rewrite (two_step _ _ _ _ _ _ _ _ _ _ _ _ _ Fa' T1 T2); unfold pic_sub, pic_op; rewrite E'; reflexivity.
Qed.
Print Assumptions C145_restores_rgb.
(** everything else is refused, and nothing happens: numbers, containers, bool, two types, two sizes, too few arguments, an unknown name *)
Definition summable (a b : pic) : Prop :=
  match a, b with
  | PInt t x, PInt u y => t = u /\ t <> mkIty 1 false /\ dims x = dims y
  | PDbl x, PDbl y => dims x = dims y
  | PRgb x, PRgb y => dims x = dims y
  | PRgbD x, PRgbD y => dims x = dims y
  | _, _ => False
  end.
Lemma is_bool_eq t : is_bool t = true <-> t = mkIty 1 false.
Proof. unfold is_bool; destruct t as [n []]; cbn [bits signed negb]; rewrite ?andb_false_r, ?andb_true_r; split; intros H; try discriminate; [apply Z.eqb_eq in H; congruence | injection H as ->; reflexivity]. Qed.
Lemma pic_op_refused fz frgb fq a b : ~ summable a b -> exists e, pic_op fz frgb fq a b = Throw e.
Proof.
  intros N; destruct a, b; cbn [summable pic_op] in *; try (eexists; reflexivity); try (rewrite image_op_other by auto; eexists; reflexivity).
  destruct (is_bool t || is_bool t0) eqn:E; [eexists; reflexivity|]; apply orb_false_iff in E as [E _].
  destruct (same_ity t t0) eqn:Es; [|eexists; reflexivity]; apply same_ity_eq in Es as <-.
  rewrite image_op_other; [eexists; reflexivity|]; intros D; apply N; split; [reflexivity|]; split; [|exact D]; rewrite <- is_bool_eq; congruence.
Qed.
Theorem C145_refused {V F} load_file save_file as_pic (of_pic : pic -> any V) args (st : state V F) :
  (forall i1 i2 out rest a b, args_filter args = i1 :: i2 :: out :: rest -> shows load_file as_pic st i1 a -> shows load_file as_pic st i2 b -> ~ summable a b) ->
  add_command V F load_file save_file as_pic of_pic args st = Ok st /\ subtract_command V F load_file save_file as_pic of_pic args st = Ok st.
Proof.
  intros N; assert (G : forall op, (forall a b, ~ summable a b -> exists e, op a b = Throw e) -> two_command V F load_file save_file as_pic of_pic op args st = Ok st).
  { intros op Ho; unfold two_command; destruct (args_filter args) as [|i1 [|i2 [|out rest]]]; try reflexivity; unfold load, shows in *.
    destruct (load_arg V F load_file st i1) as [v|] eqn:L1; [|reflexivity]; cbn [need bind]; destruct (as_pic v) as [a|] eqn:A1; [|reflexivity]; cbn [need bind].
    destruct (load_arg V F load_file st i2) as [w|] eqn:L2; [|reflexivity]; cbn [need bind]; destruct (as_pic w) as [b|] eqn:A2; [|reflexivity]; cbn [need bind].
    destruct (Ho a b) as [e E]; [|rewrite E; reflexivity]; eapply N; [reflexivity | |]; eexists; eauto. }
  split; apply G; intros a b; apply pic_op_refused.
Qed.
Print Assumptions C145_refused.
(** values for the cases *)
Definition pic_st (l : list (str * pic)) : state pic unit := mkState pic unit (map (fun p => (fst p, (0, snd p))) l) tt.
Definition run_add := add_command pic unit (fun _ _ => None) (fun _ _ _ => None) (fun v => Some (snd v)) (fun p => (0, p)).
Definition run_subtract := subtract_command pic unit (fun _ _ => None) (fun _ _ _ => None) (fun v => Some (snd v)) (fun p => (0, p)).
(** the function subtract of the library keeps to 0, the command of that name goes round: 10 - 20 *)
Theorem C145_saturation_refuted : exists x y d, wf x /\ wf y /\ dims x = dims y /\ Forall byte3 (pix x) /\ Forall byte3 (pix y)
  /\ (forall junk, length junk = 3 -> subtract_rgb junk x y = Ok d)
  /\ exists st o, map_find (lit "x") (vars _ _ st) = Some (0, PRgb x) /\ map_find (lit "y") (vars _ _ st) = Some (0, PRgb y)
     /\ run_subtract [lit "$x"; lit "$y"; lit "$o"] st = Ok (mkState pic unit (map_set (lit "o") (0, PRgb o) (vars _ _ st)) tt) /\ o <> d.
Proof.
  exists (mkImage [1; 1] [[10; 10; 10]]%Z), (mkImage [1; 1] [[20; 3; 10]]%Z), (mkImage [1; 1] [[0; 7; 0]]%Z).
  assert (B : forall a b c, (0 <= a < 256)%Z -> (0 <= b < 256)%Z -> (0 <= c < 256)%Z -> Forall byte3 [[a; b; c]]) by (intros; constructor; [split; [reflexivity | auto] | auto]).
  split; [reflexivity|]; split; [reflexivity|]; split; [reflexivity|]; split; [apply B; lia|]; split; [apply B; lia|]; split.
  - intros junk L; destruct (length3 _ L) as (j0 & j1 & j2 & ->); reflexivity.
  - exists (pic_st [(lit "x", PRgb (mkImage [1; 1] [[10; 10; 10]]%Z)); (lit "y", PRgb (mkImage [1; 1] [[20; 3; 10]]%Z))]), (mkImage [1; 1] [[246; 7; 0]]%Z).
    split; [reflexivity|]; split; [reflexivity|]; split; [vm_compute; reflexivity | discriminate].
Qed.
Print Assumptions C145_saturation_refuted.
Example C145_case : exists st1 st2,
  run_add [lit "$x"; lit "par"; lit "$y"; lit "$s"] (pic_st [(lit "x", PInt u8t (mkImage [2; 1] [200; 7]%Z)); (lit "y", PInt u8t (mkImage [2; 1] [100; 1]%Z))]) = Ok st1
  /\ map_find (lit "s") (vars _ _ st1) = Some (0, PInt u8t (mkImage [2; 1] [44; 8]%Z))
  /\ run_subtract [lit "$s"; lit "$y"; lit "$d"] st1 = Ok st2 /\ map_find (lit "d") (vars _ _ st2) = Some (0, PInt u8t (mkImage [2; 1] [200; 7]%Z))
  /\ run_add [lit "$v"; lit "$v"; lit "$s"] (pic_st [(lit "v", PSeq u8t [1; 2]%Z)]) = Ok (pic_st [(lit "v", PSeq u8t [1; 2]%Z)]).
Proof. eexists _, _; split; [vm_compute; reflexivity|]; split; [reflexivity|]; split; [vm_compute; reflexivity|]; split; reflexivity. Qed.

(** ** C146  abs *)
(** the type of the result: int for a signed type that is smaller *)
Definition abs_to (t t' : ity) : Prop := t' = if signed t && (bits t <? 32)%Z then mkIty 32 true else t.
Lemma abs_type_to t : abs_to t (abs_type t).
Proof. unfold abs_to, abs_type, promote; destruct (signed t), (bits t <? 32)%Z; reflexivity. Qed.
(** every value but the least of int or a longer signed type *)
Definition has_abs (t : ity) (z : Z) : Prop := in_type t z /\ (signed t = true -> (32 <= bits t)%Z -> z <> - 2 ^ (bits t - 1))%Z.
Lemma abs_elem_ok t z : (1 <= bits t)%Z -> has_abs t z -> abs_elem t z = Ok (Z.abs z).
Proof.
  intros B [I N]; unfold abs_elem, in_type, promote in *; destruct (signed t) eqn:Sg; [|rewrite Z.abs_eq by lia; reflexivity].
  destruct (Z.ltb_spec (bits t) 32) as [Lt|Ge]; unfold lowest; cbn [signed bits]; rewrite ?Sg.
  - assert (2 ^ (bits t - 1) < 2 ^ (32 - 1))%Z by (apply Z.pow_lt_mono_r; lia); replace (z =? _)%Z with false by (symmetry; apply Z.eqb_neq; lia); reflexivity.
  - replace (z =? _)%Z with false by (symmetry; apply Z.eqb_neq; apply N; auto); reflexivity.
Qed.
Lemma has_abs_type t z : (1 <= bits t)%Z -> has_abs t z -> in_type (abs_type t) (Z.abs z) /\ has_abs (abs_type t) (Z.abs z).
Proof.
  intros B [I N]; assert (P : in_type (abs_type t) (Z.abs z)).
  { unfold in_type, abs_type, promote in *; destruct (signed t) eqn:Sg; [|rewrite Sg; lia]; destruct (Z.ltb_spec (bits t) 32); cbn [signed bits]; rewrite ?Sg.
    - assert (2 ^ (bits t - 1) < 2 ^ (32 - 1))%Z by (apply Z.pow_lt_mono_r; lia); lia.
    - specialize (N eq_refl); lia. }
  split; [exact P|]; split; [exact P|]; intros Sg Bt; pose proof (pow_pos (bits (abs_type t) - 1)); lia.
Qed.
Lemma abs_type_idem t : abs_type (abs_type t) = abs_type t.
Proof. unfold abs_type, promote; destruct (signed t) eqn:E; [|rewrite E; reflexivity]; destruct (Z.ltb_spec (bits t) 32); cbn; [reflexivity|]; rewrite E; destruct (Z.ltb_spec (bits t) 32); auto; lia. Qed.
Lemma abs_type_bits t : (1 <= bits t)%Z -> (1 <= bits (abs_type t))%Z.
Proof. unfold abs_type, promote; destruct (signed t); auto; destruct (bits t <? 32)%Z; cbn; lia. Qed.

Section Abs.
  Context {V F : Type} (load_file : F -> str -> option (any V)) (save_file : F -> str -> any V -> option F) (sch : str -> nat -> list nat).
  Variable as_pic : any V -> option pic.
  Variable of_pic : pic -> any V.
  Hypothesis Hs : forall p, sched1_ok (sch p).
  Notation run := (abs_command V F load_file save_file sch as_pic of_pic).
  Lemma abs_image args i out rest t x st : args_filter args = i :: out :: rest -> shows load_file as_pic st i (PInt t x) ->
    wf x -> pix x <> [] -> (1 <= bits t)%Z -> Forall (has_abs t) (pix x) ->
    run args st = Ok (save_arg V F save_file st out (of_pic (PInt (abs_type t) (mkImage (dims x) (map Z.abs (pix x)))))).
  Proof.
    intros Fa S1 Wx Nx B H; unfold abs_command; rewrite (one_step _ _ _ _ _ _ _ _ _ _ _ Fa S1); unfold pic_abs; rewrite Forall_forall in H.
    rewrite (transform_seq_ok _ 0%Z (abs_elem t) Z.abs) by (first [apply policy_ok; exact Hs | intros z Hz; apply abs_elem_ok; auto]); cbn [bind].
    rewrite image_data_ok; [reflexivity | destruct (pix x); [congruence | discriminate] | rewrite map_length; exact Wx].
  Qed.
  Lemma abs_seq args i out rest t l st : args_filter args = i :: out :: rest -> shows load_file as_pic st i (PSeq t l) ->
    (1 <= bits t)%Z -> Forall (has_abs t) l -> run args st = Ok (save_arg V F save_file st out (of_pic (PSeq (abs_type t) (map Z.abs l)))).
  Proof.
    intros Fa S1 B H; unfold abs_command; rewrite (one_step _ _ _ _ _ _ _ _ _ _ _ Fa S1); unfold pic_abs; rewrite Forall_forall in H.
    rewrite (transform_seq_ok _ 0%Z (abs_elem t) Z.abs) by (first [apply policy_ok; exact Hs | intros z Hz; apply abs_elem_ok; auto]); reflexivity.
  Qed.
  Lemma has_abs_map t l : (1 <= bits t)%Z -> Forall (has_abs t) l -> Forall (has_abs (abs_type t)) (map Z.abs l).
  Proof. intros B H; rewrite Forall_forall in *; intros z Hz; apply in_map_iff in Hz as (y & <- & Hy); apply has_abs_type; auto. Qed.
  Lemma map_abs_idem l : map Z.abs (map Z.abs l) = map Z.abs l.
  Proof. rewrite map_map; apply map_ext; intros; apply Z.abs_involutive. Qed.
End Abs.

Theorem C146_image {V F} load_file save_file sch as_pic (of_pic : pic -> any V) args i out rest t x (st : state V F) :
  (forall p, sched1_ok (sch p)) -> args_filter args = i :: out :: rest -> shows load_file as_pic st i (PInt t x) ->
  wf x -> pix x <> [] -> (1 <= bits t)%Z -> Forall (has_abs t) (pix x) ->
  exists t' o, abs_command V F load_file save_file sch as_pic of_pic args st = Ok (save_arg V F save_file st out (of_pic (PInt t' o)))
    /\ abs_to t t' /\ wf o /\ dims o = dims x /\ Forall (in_type t') (pix o)
    /\ forall k z, nth_error (pix x) k = Some z -> nth_error (pix o) k = Some (Z.abs z).
Proof.
  intros Hs Fa S1 Wx Nx B H; exists (abs_type t); eexists; split; [eapply abs_image; eauto|]; split; [apply abs_type_to|]; split; [unfold wf in *; cbn [dims pix]; rewrite map_length; exact Wx|].
  split; [reflexivity|]; cbn [pix]; split.
  - rewrite Forall_forall in *; intros z Hz; apply in_map_iff in Hz as (y & <- & Hy); apply has_abs_type; auto.
  - intros k z Hz; rewrite nth_error_map, Hz; reflexivity.
Qed.
Print Assumptions C146_image.
Theorem C146_container {V F} load_file save_file sch as_pic (of_pic : pic -> any V) args i out rest t l (st : state V F) :
  (forall p, sched1_ok (sch p)) -> args_filter args = i :: out :: rest -> shows load_file as_pic st i (PSeq t l) ->
  (1 <= bits t)%Z -> Forall (has_abs t) l ->
  exists t' l', abs_command V F load_file save_file sch as_pic of_pic args st = Ok (save_arg V F save_file st out (of_pic (PSeq t' l')))
    /\ abs_to t t' /\ length l' = length l /\ Forall (in_type t') l'
    /\ forall k z, nth_error l k = Some z -> nth_error l' k = Some (Z.abs z).
Proof.
  intros Hs Fa S1 B H; exists (abs_type t); eexists; split; [eapply abs_seq; eauto|]; split; [apply abs_type_to|]; split; [apply map_length|].
  split.
  - rewrite Forall_forall in *; intros z Hz; apply in_map_iff in Hz as (y & <- & Hy); apply has_abs_type; auto.
  - intros k z Hz; rewrite nth_error_map, Hz; reflexivity.
Qed.
Print Assumptions C146_container.
(** abs of abs is abs *)
Theorem C146_again {V F} load_file save_file sch as_pic (of_pic : pic -> any V) args args' i mid out rest rest' (st : state V F) v :
  (forall p, sched1_ok (sch p)) -> (forall p, as_pic (of_pic p) = Some p) -> args_filter args = i :: mid :: rest -> args_filter args' = mid :: out :: rest' ->
  dollar mid = true -> shows load_file as_pic st i v ->
  match v with
  | PInt t x => wf x /\ pix x <> [] /\ (1 <= bits t)%Z /\ Forall (has_abs t) (pix x)
  | PSeq t l => (1 <= bits t)%Z /\ Forall (has_abs t) l
  | _ => False
  end ->
  exists w, abs_command V F load_file save_file sch as_pic of_pic args st = Ok (save_arg V F save_file st mid (of_pic w))
    /\ abs_command V F load_file save_file sch as_pic of_pic args' (save_arg V F save_file st mid (of_pic w))
       = Ok (save_arg V F save_file (save_arg V F save_file st mid (of_pic w)) out (of_pic w)).
Proof.
  intros Hs A Fa Fa' Dm S1; destruct v; try contradiction; [intros (W & N & B & H) | intros (B & H)].
  - eexists; split; [eapply abs_image; eauto|]; erewrite abs_image; [| exact Hs | exact Fa' | apply shows_saved; auto | | | |]; cbn [dims pix].
    + rewrite abs_type_idem, map_abs_idem; reflexivity.
    + unfold wf in *; cbn [dims pix]; rewrite map_length; exact W.
    + destruct (pix im); [congruence | discriminate].
    + apply abs_type_bits, B.
    + apply has_abs_map; auto.
  - eexists; split; [eapply abs_seq; eauto|]; erewrite abs_seq; [| exact Hs | exact Fa' | apply shows_saved; auto | |].
    + rewrite abs_type_idem, map_abs_idem; reflexivity.
    + apply abs_type_bits, B.
    + apply has_abs_map; auto.
Qed.
Print Assumptions C146_again.
(** the least value of int or a longer signed type: undefined *)
Theorem C146_least {V F} load_file save_file sch as_pic (of_pic : pic -> any V) args i out rest t v (st : state V F) :
  (forall p, sched1_ok (sch p)) -> args_filter args = i :: out :: rest -> shows load_file as_pic st i v -> signed t = true -> (32 <= bits t)%Z ->
  (exists x, v = PInt t x /\ In (- 2 ^ (bits t - 1))%Z (pix x)) \/ (exists l, v = PSeq t l /\ In (- 2 ^ (bits t - 1))%Z l) ->
  abs_command V F load_file save_file sch as_pic of_pic args st = UB.
Proof.
  intros Hs Fa S1 Sg B H; unfold abs_command; rewrite (one_step _ _ _ _ _ _ _ _ _ _ _ Fa S1); unfold pic_abs.
  assert (E : abs_elem t (- 2 ^ (bits t - 1)) = UB).
  { unfold abs_elem, promote; rewrite Sg; replace (bits t <? 32)%Z with false by (symmetry; apply Z.ltb_ge; exact B); unfold lowest; rewrite Sg, Z.eqb_refl; reflexivity. }
  destruct H as [(x & -> & I)|(l & -> & I)]; rewrite (transform_seq_UB _ _ _ _ _ (policy_ok sch Hs _) (abs_elem_total t) I E); reflexivity.
Qed.
Print Assumptions C146_least.
(** a picture of bytes of three colours is not changed *)
Theorem C146_rgb {V F} load_file save_file sch as_pic (of_pic : pic -> any V) args i out rest x (st : state V F) :
  (forall p, sched1_ok (sch p)) -> args_filter args = i :: out :: rest -> shows load_file as_pic st i (PRgb x) ->
  wf x -> pix x <> [] -> Forall byte3 (pix x) ->
  abs_command V F load_file save_file sch as_pic of_pic args st = Ok (save_arg V F save_file st out (of_pic (PRgb x))).
Proof.
  intros Hs Fa S1 W N B; unfold abs_command; rewrite (one_step _ _ _ _ _ _ _ _ _ _ _ Fa S1); unfold pic_abs.
  assert (P : 0 < prodn (dims x)) by (unfold wf in W; destruct (pix x); [congruence | cbn in W; lia]).
  pose proof (@ReprN_exists _ [] x W) as R; rewrite Forall_forall in B.
  assert (T : forall idx, in_range (dims x) idx -> length (nth (off (dims x) idx) (pix x) []) = 3).
  { intros idx Hi; apply B, nth_In; unfold wf in W; rewrite W; apply off_lt, Hi. }
  match goal with |- context [apply_each3 seq0 0%Z _ ?f x] =>
    destruct (apply_each3_ReprN seq0 0%Z [0; 0; 0]%Z f x (dims x) _ (fun k idx => nth k (nth (off (dims x) idx) (pix x) []) 0%Z) sched1_seq0 R P T (dims x) P) as (o & E & Ro)
  end.
  - intros k p Hk (g & Rp & Hg); exists p; split.
    + rewrite (transform_seq_ok _ 0%Z (abs_elem (mkIty 8 false)) (fun z => z)) by (first [apply policy_ok; exact Hs | reflexivity]); cbn [bind]; rewrite map_id.
      pose proof Rp as (Dp & Lp & _); rewrite image_data_ok; [destruct p; reflexivity | intros Ep; rewrite Ep in Lp; cbn in Lp; lia | rewrite Dp; exact Lp].
    + eapply ReprN_ext; [exact Rp|]; intros idx Hi; specialize (Hg idx Hi); apply (nth_error_nth _ _ 0%Z) in Hg; symmetry; exact Hg.
  - rewrite E; cbn [bind]; do 4 f_equal; eapply ReprN_unique; [exact Ro | exact R|]; intros idx Hi; cbv beta; specialize (T idx Hi).
    destruct (length3 _ T) as (a & b & c & ->); reflexivity.
Qed.
Print Assumptions C146_rgb.
(** a picture without pixels, and a number: nothing happens *)
Theorem C146_refused {V F} load_file save_file sch as_pic (of_pic : pic -> any V) args (st : state V F) :
  (forall p, sched1_ok (sch p)) ->
  (forall i out rest v, args_filter args = i :: out :: rest -> shows load_file as_pic st i v ->
     match v with PInt _ x => pix x = [] | PDbl x => pix x = [] | PNum _ _ | PReal _ => True | _ => False end) ->
  abs_command V F load_file save_file sch as_pic of_pic args st = Ok st.
Proof.
  intros Hs H; destruct (args_filter args) as [|i [|out rest]] eqn:Fa; [unfold abs_command, one_command, transform_command; rewrite Fa; reflexivity ..|].
  destruct (load_arg V F load_file st i) as [w|] eqn:Lw; [destruct (as_pic w) as [v|] eqn:Av|].
  - assert (S1 : shows load_file as_pic st i v) by (exists w; auto); specialize (H i out rest v eq_refl S1).
    unfold abs_command; rewrite (one_step _ _ _ _ _ _ _ _ _ _ _ Fa S1); unfold pic_abs; destruct v; try contradiction; try reflexivity; rewrite H.
    + rewrite (transform_seq_ok _ 0%Z _ Z.abs) by (first [apply policy_ok; exact Hs | intros z []]); reflexivity.
    + rewrite (transform_seq_ok _ 0%Q _ Qabs) by (first [apply policy_ok; exact Hs | intros z []]); reflexivity.
  - unfold abs_command, one_command, transform_command, load; rewrite Fa; cbn [length Nat.ltb Nat.leb bind]; rewrite Lw; cbn [need bind]; rewrite Av; reflexivity.
  - unfold abs_command, one_command, transform_command, load; rewrite Fa; cbn [length Nat.ltb Nat.leb bind]; rewrite Lw; reflexivity.
Qed.
Print Assumptions C146_refused.
(** doubles *)
Theorem C146_double {V F} load_file save_file sch as_pic (of_pic : pic -> any V) args i out rest x (st : state V F) :
  (forall p, sched1_ok (sch p)) -> args_filter args = i :: out :: rest -> shows load_file as_pic st i (PDbl x) -> wf x -> pix x <> [] ->
  exists o, abs_command V F load_file save_file sch as_pic of_pic args st = Ok (save_arg V F save_file st out (of_pic (PDbl o)))
    /\ wf o /\ dims o = dims x /\ forall k q, nth_error (pix x) k = Some q -> exists r, nth_error (pix o) k = Some r /\ (0 <= r)%Q /\ (r == q \/ r == - q)%Q.
Proof.
  intros Hs Fa S1 W N; unfold abs_command; rewrite (one_step _ _ _ _ _ _ _ _ _ _ _ Fa S1); unfold pic_abs.
  rewrite (transform_seq_ok _ 0%Q _ Qabs) by (first [apply policy_ok; exact Hs | reflexivity]); cbn [bind].
  rewrite image_data_ok; [| destruct (pix x); [congruence | discriminate] | rewrite map_length; exact W]; cbn [bind]; eexists; split; [reflexivity|].
  split; [unfold wf in *; cbn [dims pix]; rewrite map_length; exact W|]; split; [reflexivity|]; intros k q Hq; cbn [pix]; exists (Qabs q).
  rewrite nth_error_map, Hq; split; [reflexivity|]; split; [apply Qabs_nonneg|]; destruct (Qlt_le_dec q 0) as [L|L]; [right; apply Qabs_neg, Qlt_le_weak, L | left; apply Qabs_pos, L].
Qed.
Print Assumptions C146_double.
Definition run_abs := abs_command pic unit (fun _ _ => None) (fun _ _ _ => None) (fun _ => seq0) (fun v => Some (snd v)) (fun p => (0, p)).
Example C146_case : exists st',
  run_abs [lit "$x"; lit "unseq"; lit "$a"] (pic_st [(lit "x", PSeq (mkIty 8 true) [-128; 0; 5]%Z)]) = Ok st' /\ map_find (lit "a") (vars _ _ st') = Some (0, PSeq i32t [128; 0; 5]%Z)
  /\ run_abs [lit "$x"; lit "$a"] (pic_st [(lit "x", PInt i32t (mkImage [1; 1] [-2147483648]%Z))]) = UB.
Proof. eexists; split; [vm_compute; reflexivity|]; split; reflexivity. Qed.

(** ** C147  max and min *)
(** the elements of a picture or a container of integers *)
Definition elements (v : pic) : option (ity * list Z) :=
  match v with PInt t im => Some (t, pix im) | PSeq t l => Some (t, l) | _ => None end.
Lemma zlt_order : weak_order Z.ltb.
Proof. split; [|split]; intros; lia. Qed.
Lemma zmax_ok l : l <> [] -> exists m, vmax Z.ltb l = Ok m /\ In m l /\ forall x, In x l -> (m <? x)%Z = false.
Proof. intros N; destruct (C49_max Z.ltb (mkImage [] l) zlt_order N) as (m & E & H); exists m; split; [exact E | exact H]. Qed.
Lemma zmin_ok l : l <> [] -> exists m, vmin Z.ltb l = Ok m /\ In m l /\ forall x, In x l -> (x <? m)%Z = false.
Proof. intros N; destruct (C49_min Z.ltb (mkImage [] l) zlt_order N) as (m & E & H); exists m; split; [exact E | exact H]. Qed.
Section Extreme.
  Context {V F : Type} (load_file : F -> str -> option (any V)).
  Variable as_pic : any V -> option pic.
  Variable of_pic : pic -> any V.
  Lemma extreme_step op args (st : state V F) i rest a : args_filter args = i :: rest -> shows load_file as_pic st i a ->
    extreme_command V F load_file as_pic of_pic op args st = match op a with Ok o => keep V F of_pic rest o st | Throw _ => Ok st | UB => UB end.
  Proof.
    intros Fa (v & Lv & Av); unfold extreme_command, load; rewrite scalar_filter, Fa, Lv; cbn [need bind]; rewrite Av; cbn [need bind].
    destruct (op a); cbn [bind caught]; auto; unfold keep; destruct rest as [|o r]; [reflexivity|]; destruct (dollar o); reflexivity.
  Qed.
  Lemma keep_stored out rest v (st : state V F) : dollar out = true -> exists st', keep V F of_pic (out :: rest) v st = Ok st' /\ stored st st' (sanitize (tl out)) (of_pic v).
  Proof. intros D; unfold keep; rewrite D; eexists; split; [reflexivity | apply stored_ws]. Qed.
  Lemma keep_printed rest v (st : state V F) : match rest with out :: _ => dollar out = false | [] => True end -> keep V F of_pic rest v st = Ok st.
  Proof. destruct rest as [|o r]; cbn [keep]; auto; intros ->; reflexivity. Qed.
End Extreme.
Theorem C147_max {V F} load_file as_pic (of_pic : pic -> any V) args i out rest v t l (st : state V F) :
  args_filter args = i :: out :: rest -> dollar out = true -> shows load_file as_pic st i v -> elements v = Some (t, l) -> l <> [] ->
  exists m st', max_command V F load_file as_pic of_pic args st = Ok st' /\ stored st st' (sanitize (tl out)) (of_pic (PNum t m))
    /\ In m l /\ forall x, In x l -> (x <= m)%Z.
Proof.
  intros Fa D S1 E N; destruct (zmax_ok l N) as (m & Em & Im & Hm).
  unfold max_command; rewrite (extreme_step _ _ _ _ _ _ _ _ _ Fa S1); destruct (keep_stored of_pic out rest (PNum t m) st D) as (st' & K & P); exists m, st'.
  split; [|split; [exact P|]; split; [exact Im | intros x Hx; specialize (Hm x Hx); lia]].
  destruct v; cbn in E; try discriminate; injection E as <- <-; unfold pic_max, pic_extreme; rewrite Em; exact K.
Qed.
Print Assumptions C147_max.
Theorem C147_min {V F} load_file as_pic (of_pic : pic -> any V) args i out rest v t l (st : state V F) :
  args_filter args = i :: out :: rest -> dollar out = true -> shows load_file as_pic st i v -> elements v = Some (t, l) -> l <> [] ->
  exists m st', min_command V F load_file as_pic of_pic args st = Ok st' /\ stored st st' (sanitize (tl out)) (of_pic (PNum t m))
    /\ In m l /\ forall x, In x l -> (m <= x)%Z.
Proof.
  intros Fa D S1 E N; destruct (zmin_ok l N) as (m & Em & Im & Hm).
  unfold min_command; rewrite (extreme_step _ _ _ _ _ _ _ _ _ Fa S1); destruct (keep_stored of_pic out rest (PNum t m) st D) as (st' & K & P); exists m, st'.
  split; [|split; [exact P|]; split; [exact Im | intros x Hx; specialize (Hm x Hx); lia]].
  destruct v; cbn in E; try discriminate; injection E as <- <-; unfold pic_min, pic_extreme; rewrite Em; exact K.
Qed.
Print Assumptions C147_min.
(** without a variable for the result, or of a number: nothing is stored *)
Theorem C147_unchanged {V F} load_file as_pic (of_pic : pic -> any V) args i rest v (st : state V F) :
  args_filter args = i :: rest -> shows load_file as_pic st i v ->
  (exists t l, elements v = Some (t, l) /\ l <> [] /\ match rest with out :: _ => dollar out = false | [] => True end) \/ (exists t z, v = PNum t z) \/ (exists q, v = PReal q) ->
  max_command V F load_file as_pic of_pic args st = Ok st /\ min_command V F load_file as_pic of_pic args st = Ok st.
Proof.
  intros Fa S1 H; unfold max_command, min_command; rewrite !(extreme_step _ _ _ _ _ _ _ _ _ Fa S1); destruct H as [(t & l & E & N & R)|[(t & z & ->)|(q & ->)]]; [|split; reflexivity ..].
  destruct (zmax_ok l N) as (m & Em & _).
  destruct (zmin_ok l N) as (n & En & _).
  destruct v; cbn in E; try discriminate; injection E as <- <-; unfold pic_max, pic_min, pic_extreme; rewrite Em, En; cbn [bind]; rewrite !keep_printed by exact R; auto.
Qed.
Print Assumptions C147_unchanged.
(** an empty container or picture: undefined *)
Theorem C147_empty {V F} load_file as_pic (of_pic : pic -> any V) args i rest v t (st : state V F) :
  args_filter args = i :: rest -> shows load_file as_pic st i v -> elements v = Some (t, []) \/ v = PReals [] \/ (exists im, v = PDbl im /\ pix im = []) ->
  max_command V F load_file as_pic of_pic args st = UB /\ min_command V F load_file as_pic of_pic args st = UB.
Proof.
  intros Fa S1 H; unfold max_command, min_command; rewrite !(extreme_step _ _ _ _ _ _ _ _ _ Fa S1); destruct H as [E|[->|(im & -> & E)]].
  - destruct v; cbn in E; try discriminate; injection E as -> E; try subst l; unfold pic_max, pic_min, pic_extreme; rewrite ?E; split; reflexivity.
  - split; reflexivity.
  - unfold pic_max, pic_min, pic_extreme; rewrite E; split; reflexivity.
Qed.
Print Assumptions C147_empty.
(** three colours: the greatest and the least of each, as a container of three bytes *)
Theorem C147_rgb {V F} load_file as_pic (of_pic : pic -> any V) args i out rest im (st : state V F) :
  args_filter args = i :: out :: rest -> dollar out = true -> shows load_file as_pic st i (PRgb im) -> wf im -> pix im <> [] -> Forall byte3 (pix im) ->
  exists hi lo st1 st2, max_command V F load_file as_pic of_pic args st = Ok st1 /\ stored st st1 (sanitize (tl out)) (of_pic (PSeq (mkIty 8 false) hi))
    /\ min_command V F load_file as_pic of_pic args st = Ok st2 /\ stored st st2 (sanitize (tl out)) (of_pic (PSeq (mkIty 8 false) lo))
    /\ length hi = 3 /\ length lo = 3
    /\ forall k, k < 3 -> (exists p, In p (pix im) /\ nth k p 0%Z = nth k hi 0%Z) /\ (exists p, In p (pix im) /\ nth k p 0%Z = nth k lo 0%Z)
         /\ forall p, In p (pix im) -> (nth k lo 0 <= nth k p 0 <= nth k hi 0)%Z.
Proof.
  intros Fa D S1 W N B; unfold max_command, min_command; rewrite !(extreme_step _ _ _ _ _ _ _ _ _ Fa S1); unfold pic_max, pic_min, pic_extreme.
  assert (P : 0 < prodn (dims im)) by (unfold wf in W; destruct (pix im); [congruence | cbn in W; lia]).
  pose proof (@ReprN_exists _ [] im W) as R0; rewrite Forall_forall in B.
  set (g k idx := nth k (nth (off (dims im) idx) (pix im) []) 0%Z).
  assert (R : ReprN im (dims im) (fun idx => [g 0 idx; g 1 idx; g 2 idx])).
  { eapply ReprN_ext; [exact R0|]; intros idx Hi; assert (T : byte3 (nth (off (dims im) idx) (pix im) [])) by (apply B, nth_In; unfold wf in W; rewrite W; apply off_lt, Hi).
    unfold g; destruct (byte3_inv _ T) as (a & b & c & ->); reflexivity. }
  destruct (C49_max_channels Z.ltb seq0 0%Z im (dims im) (g 0) (g 1) (g 2) zlt_order sched1_seq0 P R) as (h0 & h1 & h2 & Eh & Hh0 & Hh1 & Hh2 & Hh).
  destruct (C49_min_channels Z.ltb seq0 0%Z im (dims im) (g 0) (g 1) (g 2) zlt_order sched1_seq0 P R) as (l0 & l1 & l2 & El & Hl0 & Hl1 & Hl2 & Hl).
  unfold im_max3, im_max in Eh; unfold im_min3, im_min in El; rewrite Eh, El; cbn [bind].
  destruct (keep_stored of_pic out rest (PSeq (mkIty 8 false) [h0; h1; h2]) st D) as (st1 & K1 & P1); destruct (keep_stored of_pic out rest (PSeq (mkIty 8 false) [l0; l1; l2]) st D) as (st2 & K2 & P2).
  exists [h0; h1; h2], [l0; l1; l2], st1, st2; split; [exact K1|]; split; [exact P1|]; split; [exact K2|]; split; [exact P2|]; split; [reflexivity|]; split; [reflexivity|].
  assert (I : forall idx, in_range (dims im) idx -> In (nth (off (dims im) idx) (pix im) []) (pix im)) by (intros idx Hi; apply nth_In; unfold wf in W; rewrite W; apply off_lt, Hi).
  assert (J : forall p, In p (pix im) -> exists idx, in_range (dims im) idx /\ p = nth (off (dims im) idx) (pix im) []).
  { intros p Hp; apply (reprN_all im (dims im) _ p R0) in Hp as (idx & Hi & E); eauto. }
  intros k Hk; assert (K : k = 0 \/ k = 1 \/ k = 2) by lia; destruct K as [->| [-> | ->]]; cbn [nth];
    [destruct Hh0 as (ih & Ih & Qh); destruct Hl0 as (il & Il & Ql) | destruct Hh1 as (ih & Ih & Qh); destruct Hl1 as (il & Il & Ql) | destruct Hh2 as (ih & Ih & Qh); destruct Hl2 as (il & Il & Ql)];
    (split; [exists (nth (off (dims im) ih) (pix im) []); split; [apply I, Ih | exact Qh]|]; split; [exists (nth (off (dims im) il) (pix im) []); split; [apply I, Il | exact Ql]|];
     intros p Hp; destruct (J p Hp) as (idx & Hi & ->); specialize (Hh idx Hi); specialize (Hl idx Hi); unfold g in Hh, Hl; lia).
Qed.
Print Assumptions C147_rgb.
Example C147_case : exists st',
  max_command pic unit (fun _ _ => None) (fun v => Some (snd v)) (fun p => (0, p)) [lit "par"; lit "$x"; lit "$m"] (pic_st [(lit "x", PInt i32t (mkImage [3; 1] [4; -9; 4]%Z))]) = Ok st'
  /\ map_find (lit "m") (vars _ _ st') = Some (0, PNum i32t 4%Z).
Proof. eexists; split; [vm_compute; reflexivity | reflexivity]. Qed.

(** ** C148  manhattan_distance *)
Definition taxicab (a b : list Z) : Z := fold_right Z.add 0%Z (map (fun p => Z.abs (fst p - snd p)) (combine a b)).
(** the differences of int or a longer signed type do not overflow *)
Definition near (t : ity) (x y : image Z) : Prop :=
  signed t = false \/ (bits t < 32)%Z \/ forall i a b, nth_error (pix x) i = Some a -> nth_error (pix y) i = Some b -> (Z.abs (a - b) < 2 ^ (bits t - 1))%Z.
Lemma near_fits t x y : (1 <= bits t)%Z -> Forall (in_type t) (pix x) -> Forall (in_type t) (pix y) -> near t x y ->
  forall i a b, nth_error (pix x) i = Some a -> nth_error (pix y) i = Some b -> (Z.abs (a - b) <= highest (promote t))%Z.
Proof.
  intros B Hx Hy N i a b Ha Hb; rewrite Forall_forall in *; pose proof (Hx a (nth_error_In _ _ Ha)) as Ia; pose proof (Hy b (nth_error_In _ _ Hb)) as Ib.
  unfold near in N; unfold in_type in *; unfold promote; pose proof (pow_half _ B); destruct (Z.ltb_spec (bits t) 32) as [L|L]; unfold highest; cbn [signed bits].
  - assert (2 ^ bits t <= 2 ^ 31)%Z by (apply Z.pow_le_mono_r; lia); change (32 - 1)%Z with 31%Z; destruct (signed t); lia.
  - destruct (signed t); [|lia]; destruct N as [N|[N|N]]; [discriminate | lia | specialize (N i a b Ha Hb); lia].
Qed.
Section Manhattan.
  Context {V F : Type} (load_file : F -> str -> option (any V)).
  Variable as_pic : any V -> option pic.
  Variable of_pic : pic -> any V.
  Lemma manhattan_step args (st : state V F) i1 i2 rest a b : args_filter args = i1 :: i2 :: rest ->
    shows load_file as_pic st i1 a -> shows load_file as_pic st i2 b ->
    manhattan_command V F load_file as_pic of_pic args st = match pic_manhattan a b with Ok o => keep V F of_pic rest o st | Throw _ => Ok st | UB => UB end.
  Proof.
    intros Fa (v & Lv & Av) (w & Lw & Aw); unfold manhattan_command, load; rewrite Fa, Lv; cbn [need bind]; rewrite Av; cbn [need bind]; rewrite Lw; cbn [need bind].
    rewrite Aw; cbn [need bind]; destruct (pic_manhattan a b); cbn [bind caught]; auto; unfold keep; destruct rest as [|o r]; [reflexivity|]; destruct (dollar o); reflexivity.
  Qed.
End Manhattan.
Theorem C148_int {V F} load_file as_pic (of_pic : pic -> any V) args i1 i2 out rest t x y (st : state V F) :
  args_filter args = i1 :: i2 :: out :: rest -> dollar out = true -> shows load_file as_pic st i1 (PInt t x) -> shows load_file as_pic st i2 (PInt t y) ->
  wf x -> wf y -> dims x = dims y -> pix x <> [] -> (1 <= bits t)%Z -> Forall (in_type t) (pix x) -> Forall (in_type t) (pix y) -> near t x y ->
  exists st', manhattan_command V F load_file as_pic of_pic args st = Ok st'
    /\ stored st st' (sanitize (tl out)) (of_pic (PReal (inject_Z (taxicab (pix x) (pix y))))) /\ (taxicab (pix x) (pix y) = 0%Z <-> x = y).
Proof.
  intros Fa D S1 S2 Wx Wy E N B Hx Hy Ne; rewrite (manhattan_step _ _ _ _ _ _ _ _ _ _ Fa S1 S2); unfold pic_manhattan; rewrite same_ity_refl.
  assert (P : 0 < prodn (dims x)) by (unfold wf in Wx; destruct (pix x); [congruence | cbn in Wx; lia]).
  rewrite manhattan_ok; auto; [|apply near_fits; auto]; cbn [bind].
  destruct (keep_stored of_pic out rest (PReal (inject_Z (zdist (pix x) (pix y)))) st D) as (st' & K & T); exists st'; split; [exact K|]; split; [exact T|].
  assert (Q : forall p q, length p = length q -> taxicab p q = 0%Z <-> p = q).
  { assert (G : forall p q, (0 <= taxicab p q)%Z) by (intros p q; apply zdist_nonneg).
    induction p as [|a p IH]; intros [|b q] L; cbn in L; try lia; [split; reflexivity|]; assert (L' : length p = length q) by lia; specialize (IH q L').
    pose proof (G p q) as Gp; unfold taxicab in *; cbn [combine map fold_right fst snd]; split.
    - intros Z0; assert (Z1 : Z.abs (a - b) = 0%Z) by lia; f_equal; [lia | apply IH; lia].
    - intros Q; injection Q as -> Q; apply IH in Q; lia. }
  rewrite Q by (unfold wf in *; congruence); split; [|intros ->; reflexivity]; destruct x as [dx px], y as [dy py]; cbn [dims pix] in *; congruence.
Qed.
Print Assumptions C148_int.
(** the order of the two does not matter: the whole state is the same *)
Theorem C148_symmetric {V F} load_file as_pic (of_pic : pic -> any V) args args' i1 i2 rest t x y (st : state V F) :
  args_filter args = i1 :: i2 :: rest -> args_filter args' = i2 :: i1 :: rest -> shows load_file as_pic st i1 (PInt t x) -> shows load_file as_pic st i2 (PInt t y) ->
  wf x -> wf y -> (1 <= bits t)%Z -> Forall (in_type t) (pix x) -> Forall (in_type t) (pix y) -> near t x y ->
  manhattan_command V F load_file as_pic of_pic args st = manhattan_command V F load_file as_pic of_pic args' st.
Proof.
  intros Fa Fa' S1 S2 Wx Wy B Hx Hy Ne; rewrite (manhattan_step _ _ _ _ _ _ _ _ _ _ Fa S1 S2), (manhattan_step _ _ _ _ _ _ _ _ _ _ Fa' S2 S1); unfold pic_manhattan; rewrite same_ity_refl.
  assert (Ne' : near t y x).
  { destruct Ne as [Ne|[Ne|Ne]]; [left | right; left | right; right]; auto; intros i a b Ha Hb; specialize (Ne i b a Hb Ha); lia. }
  destruct (list_eq_dec Nat.eq_dec (dims x) (dims y)) as [E|E].
  - destruct (Nat.eq_dec (prodn (dims x)) 0) as [Z0|Z0].
    + unfold wf in *; rewrite <- E in Wy; rewrite Z0 in Wx, Wy; destruct (pix x) eqn:Px; [|discriminate]; destruct (pix y) eqn:Py; [|discriminate].
      unfold manhattan_distance, difference_ty; rewrite Px, Py, <- E, size_eqb_same; reflexivity.
    + rewrite !manhattan_ok; auto; try lia; [| rewrite <- E; lia | |]; try (apply near_fits; auto).
      replace (zdist (pix y) (pix x)) with (zdist (pix x) (pix y)); [reflexivity|].
      assert (G : forall p q, zdist p q = zdist q p); [|apply G]; unfold zdist; induction p as [|a p IH]; intros [|b q]; cbn; auto; unfold zsum in *; cbn; rewrite IH; lia.
  - unfold manhattan_distance; rewrite !size_eqb_other by congruence; reflexivity.
Qed.
Print Assumptions C148_symmetric.
(** three colours: the three distances, as a container of doubles *)
Theorem C148_rgb {V F} load_file as_pic (of_pic : pic -> any V) args i1 i2 out rest x y (st : state V F) :
  args_filter args = i1 :: i2 :: out :: rest -> dollar out = true -> shows load_file as_pic st i1 (PRgb x) -> shows load_file as_pic st i2 (PRgb y) ->
  wf x -> wf y -> dims x = dims y -> pix x <> [] -> Forall byte3 (pix x) -> Forall byte3 (pix y) ->
  exists st', manhattan_command V F load_file as_pic of_pic args st = Ok st'
    /\ stored st st' (sanitize (tl out)) (of_pic (PReals (map (fun k => inject_Z (taxicab (map (fun p => nth k p 0%Z) (pix x)) (map (fun p => nth k p 0%Z) (pix y)))) [0; 1; 2]))).
Proof.
  intros Fa D S1 S2 Wx Wy E N Bx By; rewrite (manhattan_step _ _ _ _ _ _ _ _ _ _ Fa S1 S2); unfold pic_manhattan; rewrite <- E, size_eqb_same; cbn [negb].
  assert (P : 0 < prodn (dims x)) by (unfold wf in Wx; destruct (pix x); [congruence | cbn in Wx; lia]).
  assert (G : forall im k, wf im -> 0 < prodn (dims im) -> Forall byte3 (pix im) -> k < 3 -> get_plane seq0 0%Z im k = Ok (mkImage (dims im) (map (fun p => nth k p 0%Z) (pix im)))).
  { intros im k W Pi B Hk; unfold get_plane, count; unfold wf in W.
    rewrite <- W, (fill_ok seq0 (length (pix im)) 0%Z _ (fun i => nth k (nth i (pix im) []) 0%Z)); [|apply sched1_seq0|].
    - cbn [bind]; replace (map _ (seq 0 (length (pix im)))) with (map (fun p => nth k p 0%Z) (pix im)).
      + apply image_data_ok; [intros M; apply map_eq_nil in M; rewrite M in W; cbn in W; lia | rewrite map_length; exact W].
      + apply nth_error_ext; intros i; rewrite !nth_error_map; destruct (Nat.lt_ge_cases i (length (pix im))) as [L|L].
        * rewrite nth_error_seq by exact L; cbn [option_map]; rewrite (nth_error_nth' (pix im) [] L); reflexivity.
        * replace (nth_error (seq 0 (length (pix im))) i) with (@None nat) by (symmetry; apply nth_error_None; rewrite seq_length; exact L).
          replace (nth_error (pix im) i) with (@None (list Z)) by (symmetry; apply nth_error_None; exact L); reflexivity.
    - intros i Hi; rewrite (vget_ok (pix im) i (nth i (pix im) [])) by (apply nth_error_nth'; exact Hi); cbn [bind]; rewrite Forall_forall in B.
      apply vget_ok, nth_error_nth'; destruct (B (nth i (pix im) [])) as [L3 _]; [apply nth_In, Hi | lia]. }
  assert (M : forall k, k < 3 -> (let* p := get_plane seq0 0%Z x k in let* q := get_plane seq0 0%Z y k in manhattan_distance (2 ^ 31 - 1) p q)
    = Ok (taxicab (map (fun p => nth k p 0%Z) (pix x)) (map (fun p => nth k p 0%Z) (pix y)))).
  { intros k Hk; rewrite !G by (auto; rewrite <- E; auto); cbn [bind]; apply manhattan_ok; unfold wf in *; cbn [dims pix]; rewrite ?map_length; auto.
    intros i a b Ha Hb; rewrite nth_error_map in Ha, Hb; destruct (nth_error (pix x) i) as [p|] eqn:Hp; [|discriminate]; destruct (nth_error (pix y) i) as [q|] eqn:Hq; [|discriminate].
    rewrite Forall_forall in Bx, By; apply nth_error_In in Hp, Hq; apply Bx in Hp as [Lp Fp]; apply By in Hq as [Lq Fq]; rewrite Forall_forall in Fp, Fq.
    cbn in Ha, Hb; injection Ha as <-; injection Hb as <-; assert (I : In (nth k p 0%Z) p) by (apply nth_In; lia); assert (J : In (nth k q 0%Z) q) by (apply nth_In; lia).
    apply Fp in I; apply Fq in J; cbn in I, J; change (2 ^ 31 - 1)%Z with 2147483647%Z; lia. }
  cbn [mapM seq]; rewrite !M by lia; cbn [bind map]; apply keep_stored, D.
Qed.
Print Assumptions C148_rgb.
(** two sizes, two types, a container or a number: nothing happens *)
Definition measurable (a b : pic) : Prop :=
  match a, b with
  | PInt t x, PInt u y => t = u /\ dims x = dims y
  | PDbl x, PDbl y => dims x = dims y
  | PRgb x, PRgb y => dims x = dims y
  | PRgbD x, PRgbD y => dims x = dims y
  | _, _ => False
  end.
Theorem C148_refused {V F} load_file as_pic (of_pic : pic -> any V) args i1 i2 rest a b (st : state V F) :
  args_filter args = i1 :: i2 :: rest -> shows load_file as_pic st i1 a -> shows load_file as_pic st i2 b -> ~ measurable a b ->
  manhattan_command V F load_file as_pic of_pic args st = Ok st.
Proof.
  intros Fa S1 S2 N; rewrite (manhattan_step _ _ _ _ _ _ _ _ _ _ Fa S1 S2); destruct a, b; cbn [measurable pic_manhattan] in *; try reflexivity.
  - destruct (same_ity t t0) eqn:Es; [|reflexivity]; apply same_ity_eq in Es as <-; unfold manhattan_distance; rewrite size_eqb_other; [reflexivity | intros E; apply N; auto].
  - unfold manhattan_q; rewrite size_eqb_other; [reflexivity | auto].
  - rewrite size_eqb_other; [reflexivity | auto].
  - rewrite size_eqb_other; [reflexivity | auto].
Qed.
Print Assumptions C148_refused.
(** int: the distance between the ends of the range is undefined *)
Theorem C148_overflow {V F} load_file as_pic (of_pic : pic -> any V) args i1 i2 rest t x y (st : state V F) i a b :
  args_filter args = i1 :: i2 :: rest -> shows load_file as_pic st i1 (PInt t x) -> shows load_file as_pic st i2 (PInt t y) ->
  wf x -> wf y -> dims x = dims y -> signed t = true -> (32 <= bits t)%Z -> nth_error (pix x) i = Some a -> nth_error (pix y) i = Some b ->
  (2 ^ (bits t - 1) <= Z.abs (a - b))%Z -> manhattan_command V F load_file as_pic of_pic args st = UB.
Proof.
  intros Fa S1 S2 Wx Wy E Sg B Ha Hb O; rewrite (manhattan_step _ _ _ _ _ _ _ _ _ _ Fa S1 S2); unfold pic_manhattan, manhattan_distance, difference_ty; rewrite same_ity_refl, <- E, size_eqb_same; cbn [negb].
  rewrite (transform2M_UB _ (pix x) (pix y) i a b); auto; [unfold wf in *; congruence | |].
  - unfold abs_diff, promote; replace (bits t <? 32)%Z with false by (symmetry; apply Z.ltb_ge; exact B); unfold highest; rewrite Sg.
    replace (_ <=? _)%Z with false; [reflexivity|]; symmetry; apply Z.leb_gt; destruct (Z.ltb_spec b a); lia.
  - intros u v; unfold abs_diff; destruct (_ <=? _)%Z; eauto.
Qed.
Print Assumptions C148_overflow.
Example C148_case : exists st',
  manhattan_command pic unit (fun _ _ => None) (fun v => Some (snd v)) (fun p => (0, p)) [lit "$x"; lit "$y"; lit "par"; lit "$m"]
    (pic_st [(lit "x", PInt u8t (mkImage [3; 1] [4; 9; 4]%Z)); (lit "y", PInt u8t (mkImage [3; 1] [14; 0; 4]%Z))]) = Ok st'
  /\ map_find (lit "m") (vars _ _ st') = Some (0, PReal 19).
Proof. eexists; split; [vm_compute; reflexivity | reflexivity]. Qed.

(** ** C149  the planes of a picture, and constructRGB *)
Definition plane_of {V} (as_pic : any V -> option pic) (v : any V) : option (image Z) :=
  match as_pic v with Some (PInt t im) => if same_ity t (mkIty 8 false) then Some im else None | _ => None end.
Theorem C149_planes {V F} load_file save_file sch s as_pic (of_pic : pic -> any V) a0 a1 a2 a3 input r g b out t0 t1 t2 t3 im w h (st : state V F) :
  (forall p, sched1_ok (sch p)) -> sched1_ok s -> (forall p, as_pic (of_pic p) = Some p) ->
  args_filter a0 = input :: r :: t0 -> args_filter a1 = input :: g :: t1 -> args_filter a2 = input :: b :: t2 -> args_filter a3 = r :: g :: b :: out :: t3 ->
  dollar r = true -> dollar g = true -> dollar b = true -> apart r g -> apart r b -> apart g b -> apart input r -> apart input g ->
  shows load_file as_pic st input (PRgb im) -> wf im -> dims im = [w; h] -> 0 < w * h -> (Z.of_nat (w * h) < 2 ^ 64)%Z -> Forall byte3 (pix im) ->
  exists st1 st2 st3, plane_command V F load_file save_file as_pic of_pic s 0 a0 st = Ok st1
    /\ plane_command V F load_file save_file as_pic of_pic s 1 a1 st1 = Ok st2
    /\ plane_command V F load_file save_file as_pic of_pic s 2 a2 st2 = Ok st3
    /\ construct_command V F load_file save_file sch (fun o => of_pic (PRgb o)) (plane_of as_pic) a3 st3 = Ok (save_arg V F save_file st3 out (of_pic (PRgb im))).
Proof.
  intros Hs Hs1 A F0 F1 F2 F3 Dr Dg Db Arg Arb Agb Air Aig S0 W D P Fp B; unfold plane_command.
  assert (G : forall k, k < 3 -> exists p, get_plane s 0%Z im k = Ok p).
  { intros k Hk; pose proof (@ReprN_exists _ [] im W) as R; rewrite Forall_forall in B.
    destruct (get_plane_ReprN s Hs1 0%Z im (dims im) _ k (fun idx => nth k (nth (off (dims im) idx) (pix im) []) 0%Z) R) as (p & Ep & _); [rewrite D, prodn2; exact P | | eauto].
    intros idx Hi; apply nth_error_nth'; destruct (B (nth (off (dims im) idx) (pix im) [])) as [L3 _]; [apply nth_In; unfold wf in W; rewrite W; apply off_lt, Hi | lia]. }
  destruct (G 0) as (p0 & E0); [lia|]; destruct (G 1) as (p1 & E1); [lia|]; destruct (G 2) as (p2 & E2); [lia|].
  set (u := mkIty 8 false); set (s1 := save_arg V F save_file st r (of_pic (PInt u p0))); set (s2 := save_arg V F save_file s1 g (of_pic (PInt u p1))).
  set (s3 := save_arg V F save_file s2 b (of_pic (PInt u p2))); exists s1, s2, s3.
  assert (T1 : shows load_file as_pic s1 input (PRgb im)) by (apply shows_other; auto).
  assert (T2 : shows load_file as_pic s2 input (PRgb im)) by (apply shows_other; auto).
  split; [rewrite (one_step _ _ _ _ _ _ _ _ _ _ _ F0 S0); unfold pic_plane; rewrite E0; reflexivity|].
  split; [rewrite (one_step _ _ _ _ _ _ _ _ _ _ _ F1 T1); unfold pic_plane; rewrite E1; reflexivity|].
  split; [rewrite (one_step _ _ _ _ _ _ _ _ _ _ _ F2 T2); unfold pic_plane; rewrite E2; reflexivity|].
  assert (L : forall st0 a p, shows load_file as_pic st0 a (PInt u p) -> loads load_file (plane_of as_pic) st0 a p).
  { intros st0 a p (v & Lv & Av); exists v; split; [exact Lv|]; unfold plane_of; rewrite Av; reflexivity. }
  apply (C132_planes load_file save_file sch (fun o => of_pic (PRgb o)) (plane_of as_pic) a3 r g b out t3 im w h s p0 p1 p2 s3); auto.
  - apply L; apply shows_other; auto; apply shows_other; auto; apply shows_saved; auto.
  - apply L; apply shows_other; auto; apply shows_saved; auto.
  - apply L; apply shows_saved; auto.
Qed.
Print Assumptions C149_planes.
(** a picture without three channels has no planes *)
Theorem C149_refused {V F} load_file save_file s as_pic (of_pic : pic -> any V) k args i out rest v (st : state V F) :
  args_filter args = i :: out :: rest -> shows load_file as_pic st i v -> match v with PRgb _ | PRgbD _ => False | _ => True end ->
  plane_command V F load_file save_file as_pic of_pic s k args st = Ok st.
Proof. intros Fa S1 H; unfold plane_command; rewrite (one_step _ _ _ _ _ _ _ _ _ _ _ Fa S1); destruct v; try contradiction; reflexivity. Qed.
Print Assumptions C149_refused.
Definition run_plane := plane_command pic unit (fun _ _ => None) (fun _ _ _ => None) (fun v => Some (snd v)) (fun p => (0, p)) seq0.
Example C149_case : exists st1 st2 st3 st4,
  run_plane 0 [lit "$x"; lit "$r"] (pic_st [(lit "x", PRgb (mkImage [2; 1] [[1; 2; 3]; [4; 5; 6]]%Z))]) = Ok st1
  /\ map_find (lit "r") (vars _ _ st1) = Some (0, PInt u8t (mkImage [2; 1] [1; 4]%Z))
  /\ run_plane 1 [lit "$x"; lit "$g"] st1 = Ok st2 /\ run_plane 2 [lit "par"; lit "$x"; lit "$b"] st2 = Ok st3
  /\ construct_command pic unit (fun _ _ => None) (fun _ _ _ => None) (fun _ => seq0) (fun o => (0, PRgb o)) (plane_of (fun v => Some (snd v))) [lit "$r"; lit "$g"; lit "$b"; lit "$o"] st3 = Ok st4
  /\ map_find (lit "o") (vars _ _ st4) = map_find (lit "x") (vars _ _ st1).
Proof. eexists _, _, _, _; split; [vm_compute; reflexivity|]; split; [reflexivity|]; split; [vm_compute; reflexivity|]; split; [vm_compute; reflexivity|]; split; [vm_compute; reflexivity | reflexivity]. Qed.

(** ** C150  im2double and im2uint8 *)
Theorem C150_rgb {V F} load_file save_file s as_pic (of_pic : pic -> any V) args args' input mid out rest rest' im (st : state V F) :
  sched1_ok s -> (forall p, as_pic (of_pic p) = Some p) -> args_filter args = input :: mid :: rest -> args_filter args' = mid :: out :: rest' -> dollar mid = true ->
  shows load_file as_pic st input (PRgb im) -> wf im -> pix im <> [] -> Forall byte3 (pix im) ->
  exists o, double_command V F load_file save_file as_pic of_pic s args st = Ok (save_arg V F save_file st mid (of_pic (PRgbD o)))
    /\ dims o = dims im /\ (forall i k p z, nth_error (pix im) i = Some p -> nth_error p k = Some z -> exists q, nth_error (pix o) i = Some q /\ nth_error q k = Some (inject_Z z))
    /\ uint8_command V F load_file save_file as_pic of_pic s args' (save_arg V F save_file st mid (of_pic (PRgbD o)))
       = Ok (save_arg V F save_file (save_arg V F save_file st mid (of_pic (PRgbD o))) out (of_pic (PRgb im))).
Proof.
  intros Hs A Fa Fa' Dm S1 W N B; unfold double_command, uint8_command; rewrite (one_step _ _ _ _ _ _ _ _ _ _ _ Fa S1); unfold pic_double.
  assert (P : 0 < prodn (dims im)) by (unfold wf in W; destruct (pix im); [congruence | cbn in W; lia]).
  pose proof (@ReprN_exists _ [] im W) as R; pose proof B as B'; rewrite Forall_forall in B.
  assert (T : forall idx, in_range (dims im) idx -> length (nth (off (dims im) idx) (pix im) []) = 3 /\ Forall is_u8 (nth (off (dims im) idx) (pix im) [])).
  { intros idx Hi; apply B, nth_In; unfold wf in W; rewrite W; apply off_lt, Hi. }
  pose proof (C72_rgb_double_round_trip s im (dims im) _ Hs R P T) as C.
  destruct (convert3_ReprN s [0; 0; 0]%Q (fun z => Ok (double_of_u8 z)) double_of_u8 im (dims im) _ Hs R P) as (o & Eo & Ro).
  { intros idx Hi; destruct (T idx Hi) as [L3 _]; split; [exact L3 | apply Forall_forall; reflexivity]. }
  unfold im2double in *; rewrite Eo in C |- *; cbn [bind] in C |- *; exists o; split; [reflexivity|]; split; [apply Ro|]; split.
  - intros i k p z Hp Hz; assert (Hi : i < prodn (dims im)) by (unfold wf in W; rewrite <- W; apply nth_error_Some; congruence).
    destruct (unoff_spec (dims im) i Hi) as [IR Ei]; destruct Ro as (_ & _ & Ro); specialize (Ro _ IR); rewrite Ei in Ro; eexists; split; [exact Ro|].
    rewrite nth_error_map, (nth_error_nth _ _ _ Hp), Hz; reflexivity.
  - assert (T1 : shows load_file as_pic (save_arg V F save_file st mid (of_pic (PRgbD o))) mid (PRgbD o)) by (apply shows_saved; auto).
    rewrite (one_step _ _ _ _ _ _ _ _ _ _ _ Fa' T1); unfold pic_uint8; rewrite C; reflexivity.
Qed.
Print Assumptions C150_rgb.
Theorem C150_gray {V F} load_file save_file s as_pic (of_pic : pic -> any V) args args' input mid out rest rest' im (st : state V F) :
  (forall p, as_pic (of_pic p) = Some p) -> args_filter args = input :: mid :: rest -> args_filter args' = mid :: out :: rest' -> dollar mid = true ->
  shows load_file as_pic st input (PInt (mkIty 8 false) im) -> wf im -> pix im <> [] -> Forall (in_type (mkIty 8 false)) (pix im) ->
  exists o, double_command V F load_file save_file as_pic of_pic s args st = Ok (save_arg V F save_file st mid (of_pic (PDbl o)))
    /\ dims o = dims im /\ (forall i z, nth_error (pix im) i = Some z -> nth_error (pix o) i = Some (inject_Z z))
    /\ uint8_command V F load_file save_file as_pic of_pic s args' (save_arg V F save_file st mid (of_pic (PDbl o)))
       = Ok (save_arg V F save_file (save_arg V F save_file st mid (of_pic (PDbl o))) out (of_pic (PInt (mkIty 8 false) im))).
Proof.
  intros A Fa Fa' Dm S1 W N B; unfold double_command, uint8_command; rewrite (one_step _ _ _ _ _ _ _ _ _ _ _ Fa S1); unfold pic_double; rewrite same_ity_refl.
  assert (B' : Forall is_u8 (pix im)) by exact B.
  pose proof (C72_gray_double_round_trip im W N B') as C; unfold im2double_gray, cast in *.
  rewrite image_data_ok in C |- *; [| destruct (pix im); [congruence | discriminate] | rewrite map_length; exact W | destruct (pix im); [congruence | discriminate] | rewrite map_length; exact W].
  cbn [bind] in C |- *; eexists; split; [reflexivity|]; split; [reflexivity|]; split; [intros i z Hz; cbn [pix]; rewrite nth_error_map, Hz; reflexivity|].
  match goal with |- uint8_command _ _ _ _ _ _ _ _ ?s2 = _ => idtac | |- one_command _ _ _ _ _ _ _ _ (save_arg _ _ _ _ _ (of_pic ?p)) = _ =>
    assert (T1 : shows load_file as_pic (save_arg V F save_file st mid (of_pic p)) mid p) by (apply shows_saved; auto) end.
  rewrite (one_step _ _ _ _ _ _ _ _ _ _ _ Fa' T1); unfold pic_uint8; rewrite C; reflexivity.
Qed.
Print Assumptions C150_gray.
(** other values are refused, and nothing happens *)
Theorem C150_refused {V F} load_file save_file s as_pic (of_pic : pic -> any V) args i out rest v (st : state V F) :
  args_filter args = i :: out :: rest -> shows load_file as_pic st i v ->
  (match v with PRgb _ => False | PInt t _ => t <> mkIty 8 false | _ => True end -> double_command V F load_file save_file as_pic of_pic s args st = Ok st)
  /\ (match v with PRgbD _ | PDbl _ => False | _ => True end -> uint8_command V F load_file save_file as_pic of_pic s args st = Ok st).
Proof.
  intros Fa S1; unfold double_command, uint8_command; rewrite !(one_step _ _ _ _ _ _ _ _ _ _ _ Fa S1); split; intros H; destruct v; try contradiction; try reflexivity.
  cbn [pic_double]; destruct (same_ity t (mkIty 8 false)) eqn:E; [apply same_ity_eq in E; contradiction | reflexivity].
Qed.
Print Assumptions C150_refused.
(** a double that no byte holds: the result of im2uint8 is undefined *)
Theorem C150_range {V F} load_file save_file s as_pic (of_pic : pic -> any V) args i out rest im q (st : state V F) :
  args_filter args = i :: out :: rest -> shows load_file as_pic st i (PDbl im) -> In q (pix im) -> (q <= -1 \/ 256 <= q)%Q ->
  uint8_command V F load_file save_file as_pic of_pic s args st = UB.
Proof.
  intros Fa S1 I H; unfold uint8_command; rewrite (one_step _ _ _ _ _ _ _ _ _ _ _ Fa S1); unfold pic_uint8, im2uint8_gray.
  assert (T : forall x, u8_of_double x = UB \/ exists v, u8_of_double x = Ok v) by (intros x; unfold u8_of_double; cbv zeta; destruct (_ && _); eauto).
  rewrite (mapM_UB u8_of_double (pix im) q T I); [reflexivity|]; unfold u8_of_double; cbv zeta; destruct H as [H|H].
  - replace (Qle_bool 0 q) with false.
    + assert (C : (Qceiling q <= Qceiling (-1))%Z) by (apply Qceiling_resp_le, H); change (Qceiling (-1)) with (-1)%Z in C.
      replace (0 <=? Qceiling q)%Z with false by (symmetry; apply Z.leb_gt; lia); reflexivity.
    + symmetry; apply Bool.not_true_iff_false; intros Q0; apply Qle_bool_iff in Q0; assert (Q1 : (0 <= -1)%Q) by (eapply Qle_trans; eauto); unfold Qle in Q1; cbn in Q1; lia.
  - replace (Qle_bool 0 q) with true by (symmetry; apply Qle_bool_iff; eapply Qle_trans; [|exact H]; unfold Qle; cbn; lia).
    assert (C : (Qfloor 256 <= Qfloor q)%Z) by (apply Qfloor_resp_le, H); change (Qfloor 256) with 256%Z in C.
    replace (Qfloor q <? 256)%Z with false by (symmetry; apply Z.ltb_ge; lia); rewrite andb_false_r; reflexivity.
Qed.
Print Assumptions C150_range.
Example C150_case : exists st1 st2,
  double_command pic unit (fun _ _ => None) (fun _ _ _ => None) (fun v => Some (snd v)) (fun p => (0, p)) seq0 [lit "$x"; lit "$d"] (pic_st [(lit "x", PRgb (mkImage [1; 1] [[1; 2; 255]]%Z))]) = Ok st1
  /\ map_find (lit "d") (vars _ _ st1) = Some (0, PRgbD (mkImage [1; 1] [[1; 2; 255]]%Q))
  /\ uint8_command pic unit (fun _ _ => None) (fun _ _ _ => None) (fun v => Some (snd v)) (fun p => (0, p)) seq0 [lit "$d"; lit "$y"] st1 = Ok st2
  /\ map_find (lit "y") (vars _ _ st2) = map_find (lit "x") (vars _ _ st1).
Proof. eexists _, _; split; [vm_compute; reflexivity|]; split; [reflexivity|]; split; [vm_compute; reflexivity | reflexivity]. Qed.

(** ** doubles *)
(** C145: three channels of doubles *)
Definition of_three (f : Q -> Q -> Q) (a b c : list Q) : Prop :=
  length c = 3 /\ forall k u v, nth_error a k = Some u -> nth_error b k = Some v -> nth_error c k = Some (f u v).
Theorem C145_rgb_double {V F} load_file save_file as_pic (of_pic : pic -> any V) args i1 i2 out rest x y (st : state V F) :
  args_filter args = i1 :: i2 :: out :: rest -> shows load_file as_pic st i1 (PRgbD x) -> shows load_file as_pic st i2 (PRgbD y) ->
  wf x -> wf y -> dims x = dims y -> Forall (fun p => length p = 3) (pix x) -> Forall (fun p => length p = 3) (pix y) ->
  exists s d, add_command V F load_file save_file as_pic of_pic args st = Ok (save_arg V F save_file st out (of_pic (PRgbD s)))
    /\ subtract_command V F load_file save_file as_pic of_pic args st = Ok (save_arg V F save_file st out (of_pic (PRgbD d)))
    /\ wf s /\ dims s = dims x /\ wf d /\ dims d = dims x
    /\ forall i a b, nth_error (pix x) i = Some a -> nth_error (pix y) i = Some b ->
         (exists c, nth_error (pix s) i = Some c /\ of_three Qplus a b c) /\ (exists c, nth_error (pix d) i = Some c /\ of_three Qminus a b c).
Proof.
  intros Fa S1 S2 Wx Wy D Fx Fy; unfold add_command, subtract_command; rewrite !(two_step _ _ _ _ _ _ _ _ _ _ _ _ _ Fa S1 S2); unfold pic_add, pic_sub, pic_op.
  pose (ch3 (f : Q -> Q -> Q) (a b : list Q) := [f (nth 0 a 0%Q) (nth 0 b 0%Q); f (nth 1 a 0%Q) (nth 1 b 0%Q); f (nth 2 a 0%Q) (nth 2 b 0%Q)]).
  rewrite Forall_forall in Fx, Fy.
  assert (G : forall f i a b, nth_error (pix x) i = Some a -> nth_error (pix y) i = Some b -> rgbd_op f a b = Ok (ch3 f a b) /\ of_three f a b (ch3 f a b)).
  { intros f i a b Ha Hb; apply nth_error_In in Ha, Hb; apply Fx, length3 in Ha as (a0 & a1 & a2 & ->); apply Fy, length3 in Hb as (b0 & b1 & b2 & ->).
    split; [reflexivity|]; split; [reflexivity|]; intros [|[|[|k]]] u v Hu Hv; cbn [nth_error] in Hu, Hv; try (destruct k; discriminate); injection Hu as <-; injection Hv as <-; reflexivity. }
  rewrite (image_op_ok (rgbd_op Qplus) (ch3 Qplus)) by (auto; intros i a b Ha Hb; apply (G _ i a b Ha Hb)).
  rewrite (image_op_ok (rgbd_op Qminus) (ch3 Qminus)) by (auto; intros i a b Ha Hb; apply (G _ i a b Ha Hb)); cbn [bind].
  eexists _, _; split; [reflexivity|]; split; [reflexivity|]; repeat (split; [first [reflexivity | apply image_op_wf; auto]|]).
  intros i a b Ha Hb; cbn [pix]; rewrite (image_op_pix (ch3 Qplus) _ _ _ _ _ Ha Hb), (image_op_pix (ch3 Qminus) _ _ _ _ _ Ha Hb).
  split; eexists; (split; [reflexivity | apply (G _ i a b Ha Hb)]).
Qed.
Print Assumptions C145_rgb_double.
(** C146: containers of doubles, and three channels of doubles *)
Theorem C146_doubles {V F} load_file save_file sch as_pic (of_pic : pic -> any V) args i out rest l (st : state V F) :
  (forall p, sched1_ok (sch p)) -> args_filter args = i :: out :: rest -> shows load_file as_pic st i (PReals l) ->
  exists o, abs_command V F load_file save_file sch as_pic of_pic args st = Ok (save_arg V F save_file st out (of_pic (PReals o)))
    /\ length o = length l /\ forall k q, nth_error l k = Some q -> exists r, nth_error o k = Some r /\ (0 <= r)%Q /\ (r == q \/ r == - q)%Q.
Proof.
  intros Hs Fa S1; unfold abs_command; rewrite (one_step _ _ _ _ _ _ _ _ _ _ _ Fa S1); unfold pic_abs.
  rewrite (transform_seq_ok _ 0%Q _ Qabs) by (first [apply policy_ok; exact Hs | reflexivity]); cbn [bind]; eexists; split; [reflexivity|]; split; [apply map_length|].
  intros k q Hq; exists (Qabs q); rewrite nth_error_map, Hq; split; [reflexivity|]; split; [apply Qabs_nonneg|].
  destruct (Qlt_le_dec q 0) as [L|L]; [right; apply Qabs_neg, Qlt_le_weak, L | left; apply Qabs_pos, L].
Qed.
Print Assumptions C146_doubles.
Theorem C146_rgb_double {V F} load_file save_file sch as_pic (of_pic : pic -> any V) args i out rest x (st : state V F) :
  (forall p, sched1_ok (sch p)) -> args_filter args = i :: out :: rest -> shows load_file as_pic st i (PRgbD x) ->
  wf x -> pix x <> [] -> Forall (fun p => length p = 3) (pix x) ->
  exists o, abs_command V F load_file save_file sch as_pic of_pic args st = Ok (save_arg V F save_file st out (of_pic (PRgbD o)))
    /\ wf o /\ dims o = dims x
    /\ forall j p k q, nth_error (pix x) j = Some p -> nth_error p k = Some q -> exists p' r, nth_error (pix o) j = Some p' /\ length p' = 3 /\ nth_error p' k = Some r /\ (0 <= r)%Q /\ (r == q \/ r == - q)%Q.
Proof.
  intros Hs Fa S1 W N B; unfold abs_command; rewrite (one_step _ _ _ _ _ _ _ _ _ _ _ Fa S1); unfold pic_abs.
  assert (P : 0 < prodn (dims x)) by (unfold wf in W; destruct (pix x); [congruence | cbn in W; lia]).
  pose proof (@ReprN_exists _ [] x W) as R; rewrite Forall_forall in B.
  assert (T : forall idx, in_range (dims x) idx -> length (nth (off (dims x) idx) (pix x) []) = 3).
  { intros idx Hi; apply B, nth_In; unfold wf in W; rewrite W; apply off_lt, Hi. }
  match goal with |- context [apply_each3 seq0 0%Q _ ?f x] =>
    destruct (apply_each3_ReprN seq0 0%Q [0; 0; 0]%Q f x (dims x) _ (fun k idx => Qabs (nth k (nth (off (dims x) idx) (pix x) []) 0%Q)) sched1_seq0 R P T (dims x) P) as (o & E & Ro)
  end.
  - intros k p Hk (g & Rp & Hg); pose proof Rp as (Dp & Lp & Gp).
    rewrite (transform_seq_ok _ 0%Q _ Qabs) by (first [apply policy_ok; exact Hs | reflexivity]); cbn [bind].
    rewrite image_data_ok; [| intros Ep; apply map_eq_nil in Ep; rewrite Ep in Lp; cbn in Lp; lia | rewrite map_length, Dp; exact Lp]; eexists; split; [reflexivity|].
    split; [exact Dp|]; split; [cbn [pix]; rewrite map_length; exact Lp|]; intros idx Hi; cbn [pix]; rewrite nth_error_map, (Gp idx Hi); cbn [option_map].
    specialize (Hg idx Hi); apply (nth_error_nth _ _ 0%Q) in Hg; rewrite Hg; reflexivity.
  - rewrite E; cbn [bind]; exists o; pose proof Ro as (Do & Lo & Go); split; [reflexivity|]; split; [unfold wf; rewrite Do; exact Lo|]; split; [exact Do|].
    intros j p k q Hp Hq; assert (Hj : j < prodn (dims x)) by (unfold wf in W; rewrite <- W; apply nth_error_Some; congruence).
    destruct (unoff_spec (dims x) j Hj) as [IR Ej]; specialize (Go _ IR); specialize (T _ IR); rewrite Ej in Go, T; rewrite (nth_error_nth _ _ _ Hp) in Go, T.
    destruct (length3 _ T) as (a & b & c & ->); exists [Qabs a; Qabs b; Qabs c], (Qabs q); split; [exact Go|]; split; [reflexivity|]; split.
    + destruct k as [|[|[|k]]]; cbn [nth_error] in *; try (destruct k; discriminate); congruence.
    + split; [apply Qabs_nonneg|]; destruct (Qlt_le_dec q 0) as [L|L]; [right; apply Qabs_neg, Qlt_le_weak, L | left; apply Qabs_pos, L].
Qed.
Print Assumptions C146_rgb_double.
(** C147: doubles *)
Lemma qlt_order : weak_order qltb.
Proof.
  assert (G : forall a b, qltb a b = true <-> (a < b)%Q).
  { intros a b; unfold qltb; rewrite negb_true_iff, <- Bool.not_true_iff_false, Qle_bool_iff; split; [apply Qnot_le_lt | apply Qlt_not_le]. }
  split; [|split].
  - intros a; apply Bool.not_true_iff_false; rewrite G; apply Qlt_irrefl.
  - intros a b c; rewrite !G; apply Qlt_trans.
  - intros a b c; rewrite <- !Bool.not_true_iff_false, !G; intros H1 H2 H3; apply Qnot_lt_le in H1, H2; apply (Qlt_not_le _ _ H3); eapply Qle_trans; eauto.
Qed.
Lemma qltb_le a b : qltb a b = false -> (b <= a)%Q.
Proof. unfold qltb; rewrite negb_false_iff; apply Qle_bool_iff. Qed.
Definition reals (v : pic) : option (list Q) := match v with PDbl im => Some (pix im) | PReals l => Some l | _ => None end.
Theorem C147_double {V F} load_file as_pic (of_pic : pic -> any V) args i out rest v l (st : state V F) :
  args_filter args = i :: out :: rest -> dollar out = true -> shows load_file as_pic st i v -> reals v = Some l -> l <> [] ->
  exists hi lo st1 st2, max_command V F load_file as_pic of_pic args st = Ok st1 /\ stored st st1 (sanitize (tl out)) (of_pic (PReal hi))
    /\ min_command V F load_file as_pic of_pic args st = Ok st2 /\ stored st st2 (sanitize (tl out)) (of_pic (PReal lo))
    /\ In hi l /\ In lo l /\ forall x, In x l -> (lo <= x <= hi)%Q.
Proof.
  intros Fa D S1 E N; unfold max_command, min_command; rewrite !(extreme_step _ _ _ _ _ _ _ _ _ Fa S1).
  destruct (C49_max qltb (mkImage [] l) qlt_order N) as (hi & Eh & Ih & Hh); destruct (C49_min qltb (mkImage [] l) qlt_order N) as (lo & El & Il & Hl).
  unfold im_max, im_min in Eh, El; cbn [pix] in *.
  destruct (keep_stored of_pic out rest (PReal hi) st D) as (st1 & K1 & P1); destruct (keep_stored of_pic out rest (PReal lo) st D) as (st2 & K2 & P2).
  exists hi, lo, st1, st2; destruct v; cbn in E; try discriminate; injection E as <-; unfold pic_max, pic_min, pic_extreme; rewrite Eh, El;
    (split; [exact K1|]; split; [exact P1|]; split; [exact K2|]; split; [exact P2|]; split; [exact Ih|]; split; [exact Il|]; intros x Hx; split; apply qltb_le; [apply Hl | apply Hh]; exact Hx).
Qed.
Print Assumptions C147_double.
(** C148: doubles *)
Definition taxicab_q (a b : list Q) : Q := fold_right Qplus 0%Q (map (fun p => Qabs (fst p - snd p)) (combine a b)).
Lemma fold_left_q : forall l a, (fold_left Qplus l a == a + fold_right Qplus 0%Q l)%Q.
Proof. induction l as [|x l IH]; intros a; cbn; [ring|]; rewrite IH; ring. Qed.
Lemma manhattan_q_ok x y : wf x -> wf y -> dims x = dims y -> pix x <> [] -> exists d, manhattan_q x y = Ok d /\ (d == taxicab_q (pix x) (pix y))%Q.
Proof.
  intros Wx Wy E N; unfold manhattan_q, pixelwise2; rewrite <- E, size_eqb_same; cbn [negb].
  assert (L : length (pix x) = length (pix y)) by (unfold wf in *; congruence).
  rewrite transform2_combine by exact L; cbn [bind]; rewrite image_data_ok.
  - cbn [bind pix]; eexists; split; [reflexivity|].
    unfold recursive_reduce1; rewrite fold_left_q, Qplus_0_l; unfold taxicab_q; generalize (combine (pix x) (pix y)) as l; induction l as [|[a b] l IH]; cbn [map fold_right fst snd]; [reflexivity|].
    rewrite IH; apply Qplus_comp; [|reflexivity]; destruct (qltb b a) eqn:Q0.
    + unfold qltb in Q0; rewrite negb_true_iff, <- Bool.not_true_iff_false, Qle_bool_iff in Q0; apply Qnot_le_lt in Q0; rewrite Qabs_pos; [reflexivity|].
      apply -> Qle_minus_iff; apply Qlt_le_weak, Q0.
    + apply qltb_le in Q0; rewrite <- Qabs_opp, Qabs_pos; [ring|]; setoid_replace (- (a - b))%Q with (b - a)%Q by ring; apply -> Qle_minus_iff; exact Q0.
  - intros M; apply map_eq_nil in M; destruct (pix x); [congruence|]; destruct (pix y); discriminate.
  - rewrite map_length, combine_length, <- L, Nat.min_id; exact Wx.
Qed.
Theorem C148_double {V F} load_file as_pic (of_pic : pic -> any V) args i1 i2 out rest x y (st : state V F) :
  args_filter args = i1 :: i2 :: out :: rest -> dollar out = true -> shows load_file as_pic st i1 (PDbl x) -> shows load_file as_pic st i2 (PDbl y) ->
  wf x -> wf y -> dims x = dims y -> pix x <> [] ->
  exists d st', manhattan_command V F load_file as_pic of_pic args st = Ok st' /\ stored st st' (sanitize (tl out)) (of_pic (PReal d)) /\ (d == taxicab_q (pix x) (pix y))%Q.
Proof.
  intros Fa D S1 S2 Wx Wy E N; rewrite (manhattan_step _ _ _ _ _ _ _ _ _ _ Fa S1 S2); unfold pic_manhattan.
  destruct (manhattan_q_ok x y Wx Wy E N) as (d & Ed & H); rewrite Ed; cbn [bind]; destruct (keep_stored of_pic out rest (PReal d) st D) as (st' & K & T); exists d, st'; auto.
Qed.
Print Assumptions C148_double.

(** ** three channels of doubles *)
Lemma plane_all {A} (d : A) im k s : sched1_ok s -> wf im -> 0 < prodn (dims im) -> Forall (fun p => length p = 3) (pix im) -> k < 3 ->
  get_plane s d im k = Ok (mkImage (dims im) (map (fun p => nth k p d) (pix im))).
Proof.
  intros Hs W Pi B Hk; unfold get_plane, count; unfold wf in W.
  rewrite <- W, (fill_ok s (length (pix im)) d _ (fun i => nth k (nth i (pix im) []) d)); [|apply Hs|].
  - cbn [bind]; replace (map _ (seq 0 (length (pix im)))) with (map (fun p => nth k p d) (pix im)).
    + apply image_data_ok; [intros M; apply map_eq_nil in M; rewrite M in W; cbn in W; lia | rewrite map_length; exact W].
    + apply nth_error_ext; intros i; rewrite !nth_error_map; destruct (Nat.lt_ge_cases i (length (pix im))) as [L|L].
      * rewrite nth_error_seq by exact L; cbn [option_map]; rewrite (nth_error_nth' (pix im) [] L); reflexivity.
      * replace (nth_error (seq 0 (length (pix im))) i) with (@None nat) by (symmetry; apply nth_error_None; rewrite seq_length; exact L).
        replace (nth_error (pix im) i) with (@None (list A)) by (symmetry; apply nth_error_None; exact L); reflexivity.
  - intros i Hi; rewrite (vget_ok (pix im) i (nth i (pix im) [])) by (apply nth_error_nth'; exact Hi); cbn [bind]; rewrite Forall_forall in B.
    apply vget_ok, nth_error_nth'; rewrite (B (nth i (pix im) [])); [exact Hk | apply nth_In, Hi].
Qed.
Theorem C147_rgb_double {V F} load_file as_pic (of_pic : pic -> any V) args i out rest im (st : state V F) :
  args_filter args = i :: out :: rest -> dollar out = true -> shows load_file as_pic st i (PRgbD im) -> wf im -> pix im <> [] -> Forall (fun p => length p = 3) (pix im) ->
  exists hi lo st1 st2, max_command V F load_file as_pic of_pic args st = Ok st1 /\ stored st st1 (sanitize (tl out)) (of_pic (PReals hi))
    /\ min_command V F load_file as_pic of_pic args st = Ok st2 /\ stored st st2 (sanitize (tl out)) (of_pic (PReals lo))
    /\ length hi = 3 /\ length lo = 3
    /\ forall k, k < 3 -> (exists p, In p (pix im) /\ nth k p 0%Q = nth k hi 0%Q) /\ (exists p, In p (pix im) /\ nth k p 0%Q = nth k lo 0%Q)
         /\ forall p, In p (pix im) -> (nth k lo 0 <= nth k p 0 <= nth k hi 0)%Q.
Proof.
  intros Fa D S1 W N B; unfold max_command, min_command; rewrite !(extreme_step _ _ _ _ _ _ _ _ _ Fa S1); unfold pic_max, pic_min, pic_extreme.
  assert (P : 0 < prodn (dims im)) by (unfold wf in W; destruct (pix im); [congruence | cbn in W; lia]).
  set (ch k := map (fun p => nth k p 0%Q) (pix im)).
  assert (C : forall k, ch k <> []) by (intros k E; apply map_eq_nil in E; congruence).
  assert (H : forall k, exists m, vmax qltb (ch k) = Ok m /\ In m (ch k) /\ forall x, In x (ch k) -> qltb m x = false).
  { intros k; destruct (C49_max qltb (mkImage [] (ch k)) qlt_order (C k)) as (m & E); exists m; exact E. }
  assert (L : forall k, exists m, vmin qltb (ch k) = Ok m /\ In m (ch k) /\ forall x, In x (ch k) -> qltb x m = false).
  { intros k; destruct (C49_min qltb (mkImage [] (ch k)) qlt_order (C k)) as (m & E); exists m; exact E. }
  destruct (H 0) as (h0 & Eh0 & Ih0 & Bh0), (H 1) as (h1 & Eh1 & Ih1 & Bh1), (H 2) as (h2 & Eh2 & Ih2 & Bh2).
  destruct (L 0) as (l0 & El0 & Il0 & Bl0), (L 1) as (l1 & El1 & Il1 & Bl1), (L 2) as (l2 & El2 & Il2 & Bl2).
  cbn [mapM seq]; rewrite !(plane_all 0%Q im) by (auto using sched1_seq0); cbn [bind pix]; fold (ch 0) (ch 1) (ch 2); rewrite Eh0, Eh1, Eh2, El0, El1, El2; cbn [bind].
  destruct (keep_stored of_pic out rest (PReals [h0; h1; h2]) st D) as (st1 & K1 & P1); destruct (keep_stored of_pic out rest (PReals [l0; l1; l2]) st D) as (st2 & K2 & P2).
  exists [h0; h1; h2], [l0; l1; l2], st1, st2; split; [exact K1|]; split; [exact P1|]; split; [exact K2|]; split; [exact P2|]; split; [reflexivity|]; split; [reflexivity|].
  assert (G : forall k h l, In h (ch k) -> In l (ch k) -> (forall x, In x (ch k) -> qltb h x = false) -> (forall x, In x (ch k) -> qltb x l = false) ->
    (exists p, In p (pix im) /\ nth k p 0%Q = h) /\ (exists p, In p (pix im) /\ nth k p 0%Q = l) /\ forall p, In p (pix im) -> (l <= nth k p 0 <= h)%Q).
  { intros k h l Ih Il Bh Bl; apply in_map_iff in Ih as (p & Ep & Ip), Il as (q & Eq & Iq); split; [exists p; auto|]; split; [exists q; auto|]; intros r Ir.
    assert (In (nth k r 0%Q) (ch k)) by (unfold ch; apply in_map_iff; exists r; auto); split; apply qltb_le; auto. }
  intros k Hk; assert (K : k = 0 \/ k = 1 \/ k = 2) by lia; destruct K as [->| [-> | ->]]; cbn [nth]; apply G; auto.
Qed.
Print Assumptions C147_rgb_double.
Theorem C148_rgb_double {V F} load_file as_pic (of_pic : pic -> any V) args i1 i2 out rest x y (st : state V F) :
  args_filter args = i1 :: i2 :: out :: rest -> dollar out = true -> shows load_file as_pic st i1 (PRgbD x) -> shows load_file as_pic st i2 (PRgbD y) ->
  wf x -> wf y -> dims x = dims y -> pix x <> [] -> Forall (fun p => length p = 3) (pix x) -> Forall (fun p => length p = 3) (pix y) ->
  exists l st', manhattan_command V F load_file as_pic of_pic args st = Ok st' /\ stored st st' (sanitize (tl out)) (of_pic (PReals l))
    /\ length l = 3 /\ forall k, k < 3 -> (nth k l 0 == taxicab_q (map (fun p => nth k p 0%Q) (pix x)) (map (fun p => nth k p 0%Q) (pix y)))%Q.
Proof.
  intros Fa D S1 S2 Wx Wy E N Bx By; rewrite (manhattan_step _ _ _ _ _ _ _ _ _ _ Fa S1 S2); unfold pic_manhattan; rewrite <- E, size_eqb_same; cbn [negb].
  assert (P : 0 < prodn (dims x)) by (unfold wf in Wx; destruct (pix x); [congruence | cbn in Wx; lia]).
  cbn [mapM seq]; rewrite !(plane_all 0%Q x), !(plane_all 0%Q y) by (auto using sched1_seq0; rewrite <- E; exact P); cbn [bind].
  assert (M : forall k, exists d, manhattan_q (mkImage (dims x) (map (fun p => nth k p 0%Q) (pix x))) (mkImage (dims y) (map (fun p => nth k p 0%Q) (pix y))) = Ok d
    /\ (d == taxicab_q (map (fun p => nth k p 0%Q) (pix x)) (map (fun p => nth k p 0%Q) (pix y)))%Q).
  { intros k; apply manhattan_q_ok; cbn [dims pix]; auto; [unfold wf in *; cbn [dims pix]; rewrite map_length; auto .. |]; intros M; apply map_eq_nil in M; congruence. }
  destruct (M 0) as (d0 & E0 & T0), (M 1) as (d1 & E1 & T1), (M 2) as (d2 & E2 & T2); rewrite E0, E1, E2; cbn [bind].
  destruct (keep_stored of_pic out rest (PReals [d0; d1; d2]) st D) as (st' & K & T); exists [d0; d1; d2], st'; split; [exact K|]; split; [exact T|]; split; [reflexivity|].
  intros k Hk; assert (Q0 : k = 0 \/ k = 1 \/ k = 2) by lia; destruct Q0 as [->| [-> | ->]]; cbn [nth]; assumption.
Qed.
Print Assumptions C148_rgb_double.
Theorem C149_double {V F} load_file save_file s as_pic (of_pic : pic -> any V) k args i out rest im (st : state V F) :
  sched1_ok s -> k < 3 -> args_filter args = i :: out :: rest -> shows load_file as_pic st i (PRgbD im) -> wf im -> pix im <> [] -> Forall (fun p => length p = 3) (pix im) ->
  plane_command V F load_file save_file as_pic of_pic s k args st
  = Ok (save_arg V F save_file st out (of_pic (PDbl (mkImage (dims im) (map (fun p => nth k p 0%Q) (pix im)))))).
Proof.
  intros Hs Hk Fa S1 W N B; unfold plane_command; rewrite (one_step _ _ _ _ _ _ _ _ _ _ _ Fa S1); unfold pic_plane.
  assert (P : 0 < prodn (dims im)) by (unfold wf in W; destruct (pix im); [congruence | cbn in W; lia]); rewrite (plane_all 0%Q im) by auto; reflexivity.
Qed.
Print Assumptions C149_double.
