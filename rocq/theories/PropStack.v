(** PropStack.v - the commands dct3, hsv2rgb, to_complex and estimate_gaussian_params_2d in a session: C171 to C174. *)
From Coq Require Import Reals Lra ZifyBool ZifyNat Ascii String.
From Verif Require Import Base CliModel CliProofs PipeProofs CommandModel CommandProofs PropCommand ArithModel ArithProofs.
From Verif Require Import BigSum RSum ImageModel ImageFacts IndexModel ImageProofs GeomModel GeomProofs PixelModel PixelProofs ElemModel
  BmpModel FourierModel FourierProofs PropFourier ColourModel ColourProofs PropColour FitModel FitProofs FitLoopProofs PropFit StackModel.
From Coq Require Import Rdefinitions.
Open Scope nat_scope.
Ltac Zify.zify_post_hook ::= Z.div_mod_to_equations.

(** ** specification *)
(** the argument [a] stands for the value [p]: a variable, or a file *)
Definition stands_for {V F} load_file (as_val : any V -> option rval) (st : state V F) (a : str) (p : rval) : Prop :=
  exists v, load_arg V F load_file st a = Some v /\ as_val v = Some p.
(** [d] pictures of w x h pixels, the pixel (x, y) of the picture z being [f z x y] *)
Definition stacked (l : list (image R)) (w h d : nat) (f : nat -> nat -> nat -> R) : Prop :=
  length l = d /\ forall z, z < d -> exists im, nth_error l z = Some im /\ Repr im w h (f z).
(** the coefficient of the frequencies x, y and z *)
Definition coefficient3 (w h d : nat) (f : nat -> nat -> nat -> R) (z x y : nat) : R :=
  (8 * weight x * weight y * weight z / (INR w * INR h * INR d) *
   sum (fun c => sum (fun b => sum (fun a => f c a b * cos (phase w a x) * cos (phase h b y) * cos (phase d c z)) w) h) d)%R.

(** ** sessions *)
Section Load.
  Context {V F : Type} (load_file : F -> str -> option (any V)) (save_file : F -> str -> any V -> option F).
  Variable as_val : any V -> option rval.
  Variable of_val : rval -> any V.
  Variable sch : str -> nat -> list nat.
  Lemma val_step op args st i out rest a : args_filter args = i :: out :: rest -> stands_for load_file as_val st i a ->
    val_command V F load_file save_file as_val of_val sch op args st =
      match op (policy_of sch (extract_policy args)) a with Ok o => Ok (save_arg V F save_file st out (of_val o)) | Throw _ => Ok st | UB => UB end.
  Proof.
    intros Fa (v & Lv & Av); unfold val_command, transform_command, load; rewrite Fa; cbn [bind].
    replace (length rest <? 0) with false by (symmetry; apply Nat.ltb_ge; lia).
    rewrite Lv; cbn [need bind]; rewrite Av; cbn [need bind]; destruct (op _ a); reflexivity.
  Qed.
  Lemma val_none op args st : length (args_filter args) < 2 \/ (exists i out rest, args_filter args = i :: out :: rest /\ forall p, ~ stands_for load_file as_val st i p) ->
    val_command V F load_file save_file as_val of_val sch op args st = Ok st.
  Proof.
    intros [H|(i & out & rest & Fa & H)]; unfold val_command, transform_command.
    - destruct (args_filter args) as [|i [|out rest]]; try reflexivity; cbn [length] in H; lia.
    - rewrite Fa; cbn [bind]; replace (length rest <? 0) with false by (symmetry; apply Nat.ltb_ge; lia); unfold load.
      destruct (load_arg V F load_file st i) as [v|] eqn:Lv; cbn [need bind caught]; [|reflexivity].
      destruct (as_val v) as [p|] eqn:Av; cbn [need bind caught]; [|reflexivity]; exfalso; apply (H p); exists v; auto.
  Qed.
End Load.

(** ** C171  dct3 *)
Lemma dct_value3 d h w f z x y : z < d -> x < w -> y < h -> dct_value d h w f z x y = coefficient3 w h d f z x y.
Proof.
  intros Z X Y; unfold dct_value, coefficient3.
  assert (0 < INR w)%R by (apply lt_0_INR; lia); assert (0 < INR h)%R by (apply lt_0_INR; lia); assert (0 < INR d)%R by (apply lt_0_INR; lia).
  rewrite rsum_trip, sum_rsum, <- rsum_scale; apply rsum_ext; intros c _; rewrite sum_rsum, <- rsum_scale; apply rsum_ext; intros b _.
  rewrite sum_rsum, <- rsum_scale; apply rsum_ext; intros a _; cbn [fst snd]; unfold kern3, FK; cbn [fst snd]; rewrite !weight_alpha.
  assert (P : forall N m k, (0 < INR N)%R -> dct_angle N m k = phase N m k) by (intros; unfold dct_angle, phase; field; lra).
  rewrite !P by auto; field; lra.
Qed.
(** a vector or a deque of pictures of one size: a vector with the coefficients of the volume is stored, whatever the policy *)
Theorem C171_coefficients {V F} load_file save_file as_val (of_val : rval -> any V) sch sg args i out rest (st : state V F) c l w h d f :
  sched_ok sg -> args_filter args = i :: out :: rest -> c = HVector \/ c = HDeque -> stands_for load_file as_val st i (VStack c l) -> stacked l w h d f ->
  exists o, dct3_command V F load_file save_file as_val of_val sch sg args st = Ok (save_arg V F save_file st out (of_val (VStack HVector o))) /\
    stacked o w h d (coefficient3 w h d f).
Proof.
  intros Hs Fa C St Hl; pose proof Hl as [L _]; unfold dct3_command; rewrite (val_step _ _ _ _ _ _ _ _ _ _ _ _ Fa St); unfold val_dct3.
  destruct (mapM_planes (dct3_one_plane sg l) w h d (dct_value d h w f)) as (o & E & HT); [intros; apply dct3_one_plane_spec; auto|].
  assert (ED : dct3 sg l = Ok o) by (unfold dct3; rewrite L; exact E).
  exists o; split; [destruct C; subst c; rewrite ED; reflexivity|]; destruct HT as [L' HT]; split; [exact L'|]; intros z Z; destruct (HT z Z) as (im & Ei & Ri).
  exists im; split; [exact Ei|]; eapply Repr_ext; [exact Ri|]; intros x y X Y; apply dct_value3; auto.
Qed.
Print Assumptions C171_coefficients.
(** the stored stack gives the pictures back: idct3_one_plane of it is the plane *)
Theorem C171_back {V F} load_file save_file as_val (of_val : rval -> any V) sch sg sg' args i out rest (st : state V F) c l w h d f :
  sched_ok sg -> sched_ok sg' -> args_filter args = i :: out :: rest -> c = HVector \/ c = HDeque ->
  stands_for load_file as_val st i (VStack c l) -> stacked l w h d f ->
  exists o, dct3_command V F load_file save_file as_val of_val sch sg args st = Ok (save_arg V F save_file st out (of_val (VStack HVector o))) /\
    forall k, k < d -> exists p, idct3_one_plane sg' o k = Ok p /\ Repr p w h (f k).
Proof.
  intros Hs Hs' Fa C St Hl; destruct (C46_volume sg sg' l w h d f Hs Hs' Hl) as ((o & E & H) & _); exists o; split; [|exact H].
  unfold dct3_command; rewrite (val_step _ _ _ _ _ _ _ _ _ _ _ _ Fa St); unfold val_dct3; destruct C; subst; rewrite E; reflexivity.
Qed.
Print Assumptions C171_back.
(** a list, integers, plain pictures, values of other types, unknown variables and missing arguments change nothing *)
Theorem C171_refused {V F} load_file save_file as_val (of_val : rval -> any V) sch sg args (st : state V F) :
  length (args_filter args) < 2 \/
  (exists i out rest, args_filter args = i :: out :: rest /\
     ((forall p, ~ stands_for load_file as_val st i p) \/
      exists p, stands_for load_file as_val st i p /\ forall l, p <> VStack HVector l /\ p <> VStack HDeque l)) ->
  dct3_command V F load_file save_file as_val of_val sch sg args st = Ok st.
Proof.
  intros [L|(i & out & rest & Fa & [H|(p & St & H)])]; [apply val_none; auto | apply val_none; right; exists i, out, rest; auto |].
  unfold dct3_command; rewrite (val_step _ _ _ _ _ _ _ _ _ _ _ _ Fa St); destruct p as [| | | | | | | |[] l|]; try reflexivity; destruct (H l); congruence.
Qed.
Print Assumptions C171_refused.

(** ** C172  hsv2rgb *)
Lemma hsv2rgb_policy_ok pol im ds f g : pol_ok pol -> ReprN im ds f -> 0 < prodn ds -> (forall a, in_range ds a -> hsv2rgb (f a) = Ok (g a)) ->
  exists o, hsv2rgb_policy pol im = Ok o /\ ReprN o ds g.
Proof.
  intros Hp Rf P H; destruct (pixelwiseM_ReprN hsv2rgb im ds f g Rf P H) as (o & E & Ro); exists o; split; [|exact Ro].
  rewrite <- E; unfold hsv2rgb_policy, pixelwiseM; set (G := fun v => match hsv2rgb v with Ok o => o | _ => [] end).
  assert (A : forall v, In v (pix im) -> hsv2rgb v = Ok (G v)).
  { intros v Hv; apply In_nth_error in Hv as (k & Hk); destruct Rf as (D & L & HF).
    assert (Kd : k < prodn ds) by (rewrite <- L; apply nth_error_Some; congruence).
    destruct (unoff_spec ds k Kd) as (Ir & Of); rewrite <- Of, (HF _ Ir) in Hk; injection Hk as <-; unfold G; rewrite (H _ Ir); reflexivity. }
  rewrite (transform_seq_ok pol _ _ G) by auto; rewrite <- (transform_seq_ok None [0; 0; 0]%Z hsv2rgb G (pix im) I A); reflexivity.
Qed.
(** a pixel with a hue from 0 below 360, a saturation from 0 to 1 and a value from 0 below 256 *)
Definition hsv_pixel (p : list R) : Prop := exists H S V, p = [H; S; V] /\ (0 <= H < 360)%R /\ (0 <= S <= 1)%R /\ (0 <= V < 256)%R.
(** the picture of RGB pixels is stored, for pictures of every number of dimensions and every policy *)
Theorem C172_colours {V F} load_file save_file as_val (of_val : rval -> any V) sch args i out rest (st : state V F) im ds f :
  (forall p, sched1_ok (sch p)) -> args_filter args = i :: out :: rest -> stands_for load_file as_val st i (VHsv im) ->
  ReprN im ds f -> 0 < prodn ds -> (forall a, in_range ds a -> hsv_pixel (f a)) ->
  exists o, hsv2rgb_command V F load_file save_file as_val of_val sch args st = Ok (save_arg V F save_file st out (of_val (VRgb o))) /\
    ReprN o ds (fun a => let v := hexcone 5 (nth 0 (f a) 0) (nth 1 (f a) 0) (nth 2 (f a) 0) in
                         let u := hexcone 3 (nth 0 (f a) 0) (nth 1 (f a) 0) (nth 2 (f a) 0) in
                         let t := hexcone 1 (nth 0 (f a) 0) (nth 1 (f a) 0) (nth 2 (f a) 0) in [Int_part v; Int_part u; Int_part t])%R.
Proof.
  intros Hs Fa St Rf P H; unfold hsv2rgb_command; rewrite (val_step _ _ _ _ _ _ _ _ _ _ _ _ Fa St); unfold val_hsv2rgb.
  destruct (hsv2rgb_policy_ok (policy_of sch (extract_policy args)) im ds f (fun a => [Int_part (hexcone 5 (nth 0 (f a) 0) (nth 1 (f a) 0) (nth 2 (f a) 0));
    Int_part (hexcone 3 (nth 0 (f a) 0) (nth 1 (f a) 0) (nth 2 (f a) 0)); Int_part (hexcone 1 (nth 0 (f a) 0) (nth 1 (f a) 0) (nth 2 (f a) 0))])%R) as (o & -> & Ro); auto.
  - apply policy_ok; exact Hs.
  - intros a Ha; destruct (H a Ha) as (hu & sa & va & -> & B1 & B2 & B3); cbn [nth]; apply C100_rgb; auto.
  - exists o; split; [reflexivity | exact Ro].
Qed.
Print Assumptions C172_colours.
Lemma hsv2rgb_total p : hsv2rgb p = UB \/ exists v, hsv2rgb p = Ok v.
Proof.
  assert (N : forall r, (exists z, to_u8 r = Ok z) \/ to_u8 r = UB) by (intros r; unfold to_u8; destruct (_ || _); eauto).
  assert (O : forall a b c, (let* a := to_u8 a in let* b := to_u8 b in let* c := to_u8 c in Ok [a; b; c]) = UB \/
    exists v, (let* a := to_u8 a in let* b := to_u8 b in let* c := to_u8 c in Ok [a; b; c]) = Ok v).
  { intros a b c; destruct (N a) as [(za & ->)| ->], (N b) as [(zb & ->)| ->], (N c) as [(zc & ->)| ->]; cbn [bind]; eauto. }
  unfold hsv2rgb; destruct p as [|a [|b [|c r]]]; cbn [vget nth_error bind]; auto.
  destruct (N (IZR (Int_part (a / 60)))) as [(z & ->)| ->]; cbn [bind]; auto; cbv zeta.
  repeat match goal with |- context [if ?x then _ else _] => destruct x; [apply O|] end; eauto.
Qed.
(** a pixel with a value of 256 or more: undefined *)
Theorem C172_undefined {V F} load_file save_file as_val (of_val : rval -> any V) sch args i out rest (st : state V F) im hu sa va :
  (forall p, sched1_ok (sch p)) -> args_filter args = i :: out :: rest -> stands_for load_file as_val st i (VHsv im) ->
  In [hu; sa; va] (pix im) -> (0 <= hu < 360)%R -> (0 <= sa <= 1)%R -> (256 <= va)%R ->
  hsv2rgb_command V F load_file save_file as_val of_val sch args st = UB.
Proof.
  intros Hs Fa St In3 B1 B2 B3; unfold hsv2rgb_command; rewrite (val_step _ _ _ _ _ _ _ _ _ _ _ _ Fa St); unfold val_hsv2rgb, hsv2rgb_policy.
  rewrite (transform_seq_UB _ _ _ _ _ (policy_ok sch Hs _) hsv2rgb_total In3 (C100_value_undefined hu sa va B1 B2 B3)); reflexivity.
Qed.
Print Assumptions C172_undefined.
(** anything but a picture of HSV pixels changes nothing *)
Theorem C172_refused {V F} load_file save_file as_val (of_val : rval -> any V) sch args (st : state V F) :
  length (args_filter args) < 2 \/
  (exists i out rest, args_filter args = i :: out :: rest /\
     ((forall p, ~ stands_for load_file as_val st i p) \/ exists p, stands_for load_file as_val st i p /\ forall im, p <> VHsv im)) ->
  hsv2rgb_command V F load_file save_file as_val of_val sch args st = Ok st.
Proof.
  intros [L|(i & out & rest & Fa & [H|(p & St & H)])]; [apply val_none; auto | apply val_none; right; exists i, out, rest; auto |].
  unfold hsv2rgb_command; rewrite (val_step _ _ _ _ _ _ _ _ _ _ _ _ Fa St); destruct p as [| | |im| | | | | |]; try reflexivity; destruct (H im); congruence.
Qed.
Print Assumptions C172_refused.

(** ** C173  to_complex *)
Lemma ReprN_map {A B} (G : A -> B) im ds f : ReprN im ds f -> ReprN (mkImage (dims im) (map G (pix im))) ds (fun a => G (f a)).
Proof. intros (D & L & H); repeat split; cbn [dims pix]; auto; [rewrite map_length; auto|]; intros a Ha; rewrite nth_error_map, (H a Ha); reflexivity. Qed.
Lemma to_complex_ReprN {A} pol (zero : A) im ds f : pol_ok pol -> ReprN im ds f -> 0 < prodn ds ->
  exists o, to_complex pol zero im = Ok o /\ ReprN o ds (fun a => (f a, zero)).
Proof.
  intros Hp Rf P; pose proof Rf as (D & L & _); unfold to_complex; rewrite (transform_seq_ok _ _ _ (fun x => (x, zero))) by auto; cbn [bind].
  rewrite image_data_ok; [eexists; split; [reflexivity | exact (ReprN_map (fun x => (x, zero)) im ds f Rf)] | intros E; apply map_eq_nil in E; rewrite E in L; cbn in L; lia |].
  rewrite map_length, D; exact L.
Qed.
Lemma to_complex3_ReprN {A} s pol (zero : A) d im ds f : sched1_ok s -> pol_ok pol -> ReprN im ds f -> 0 < prodn ds -> (forall a, in_range ds a -> length (f a) = 3) ->
  exists o, apply_each3 s zero d (to_complex pol zero) im = Ok o /\ ReprN o ds (fun a => map (fun c => (c, zero)) (f a)).
Proof.
  intros Hs Hp Rf P L3; destruct (apply_each3_ReprN s zero d (to_complex pol zero) im ds f (fun k a => (nth k (f a) zero, zero)) Hs Rf P L3 ds P) as (o & E & Ro).
  - intros k p Hk (g & Rg & Eg); destruct (to_complex_ReprN pol zero p ds g Hp Rg P) as (q & Eq & Rq); exists q; split; [exact Eq|].
    eapply ReprN_ext; [exact Rq|]; intros a Ha; cbv beta; f_equal; symmetry; apply nth_error_nth, Eg, Ha.
  - exists o; split; [exact E|]; eapply ReprN_ext; [exact Ro|]; intros a Ha; cbv beta; specialize (L3 a Ha).
    destruct (f a) as [|x [|y [|z [|]]]]; try discriminate; reflexivity.
Qed.
(** a picture of doubles, and one of HSV or RGB_DOUBLE pixels: every number v becomes v + 0i *)
Theorem C173_doubles {V F} load_file save_file as_val (of_val : rval -> any V) sch s args i out rest (st : state V F) im ds f :
  (forall p, sched1_ok (sch p)) -> args_filter args = i :: out :: rest -> stands_for load_file as_val st i (VReal im) -> ReprN im ds f -> 0 < prodn ds ->
  exists o, to_complex_command V F load_file save_file as_val of_val sch s args st = Ok (save_arg V F save_file st out (of_val (VComplex o))) /\
    ReprN o ds (fun a => (f a, 0%R)).
Proof.
  intros Hs Fa St Rf P; unfold to_complex_command; rewrite (val_step _ _ _ _ _ _ _ _ _ _ _ _ Fa St); unfold val_to_complex.
  destruct (to_complex_ReprN (policy_of sch (extract_policy args)) 0%R im ds f (policy_ok sch Hs _) Rf P) as (o & -> & Ro); exists o; split; [reflexivity | exact Ro].
Qed.
Print Assumptions C173_doubles.
Theorem C173_colours {V F} load_file save_file as_val (of_val : rval -> any V) sch s args i out rest (st : state V F) v im ds f :
  (forall p, sched1_ok (sch p)) -> sched1_ok s -> args_filter args = i :: out :: rest -> v = VHsv im \/ v = VThree im -> stands_for load_file as_val st i v ->
  ReprN im ds f -> 0 < prodn ds -> (forall a, in_range ds a -> length (f a) = 3) ->
  exists o, to_complex_command V F load_file save_file as_val of_val sch s args st = Ok (save_arg V F save_file st out (of_val (VComplex3 o))) /\
    ReprN o ds (fun a => map (fun c => (c, 0%R)) (f a)).
Proof.
  intros Hs Ho Fa Ev St Rf P L3; unfold to_complex_command; rewrite (val_step _ _ _ _ _ _ _ _ _ _ _ _ Fa St); unfold val_to_complex.
  destruct (to_complex3_ReprN s (policy_of sch (extract_policy args)) 0%R [] im ds f Ho (policy_ok sch Hs _) Rf P L3) as (o & E & Ro); exists o.
  split; [destruct Ev; subst v; rewrite E; reflexivity | exact Ro].
Qed.
Print Assumptions C173_colours.
(** complex data is stored as it is *)
Theorem C173_complex {V F} load_file save_file as_val (of_val : rval -> any V) sch s args i out rest (st : state V F) v :
  args_filter args = i :: out :: rest -> stands_for load_file as_val st i v -> (exists im, v = VComplex im) \/ (exists im, v = VComplex3 im) ->
  to_complex_command V F load_file save_file as_val of_val sch s args st = Ok (save_arg V F save_file st out (of_val v)).
Proof.
  intros Fa St H; unfold to_complex_command; rewrite (val_step _ _ _ _ _ _ _ _ _ _ _ _ Fa St); unfold val_to_complex.
  destruct H as [(im & ->)|(im & ->)]; reflexivity.
Qed.
Print Assumptions C173_complex.
(** missing arguments, unknown variables, bool pictures, containers, and - although they have a complex picture - pictures of integers and of RGB
    pixels change nothing *)
Theorem C173_unchanged {V F} load_file save_file as_val (of_val : rval -> any V) sch s args (st : state V F) :
  (forall p, sched1_ok (sch p)) -> sched1_ok s ->
  length (args_filter args) < 2 \/
  (exists i out rest, args_filter args = i :: out :: rest /\
     ((forall p, ~ stands_for load_file as_val st i p) \/
      (exists t im, stands_for load_file as_val st i (VInt t im) /\ (is_bool t = true \/ exists ds f, ReprN im ds f /\ 0 < prodn ds)) \/
      (exists im ds f, stands_for load_file as_val st i (VRgb im) /\ ReprN im ds f /\ 0 < prodn ds /\ forall a, in_range ds a -> length (f a) = 3) \/
      (exists l, stands_for load_file as_val st i (VNumbers l)) \/ (exists c l, stands_for load_file as_val st i (VStack c l)) \/
      (exists c t l, stands_for load_file as_val st i (VIntStack c t l)))) ->
  to_complex_command V F load_file save_file as_val of_val sch s args st = Ok st.
Proof.
  intros Hs Ho [L|(i & out & rest & Fa & [H|H])]; [apply val_none; auto | apply val_none; right; exists i, out, rest; auto |]; unfold to_complex_command.
  destruct H as [(t & im & St & H)|[(im & ds & f & St & Rf & P & L3)|[(l & St)|[(c & l & St)|(c & t & l & St)]]]];
    rewrite (val_step _ _ _ _ _ _ _ _ _ _ _ _ Fa St); cbn [val_to_complex]; try reflexivity.
  - destruct (is_bool t); [reflexivity|]; destruct H as [H|(ds & f & Rf & P)]; [discriminate|].
    destruct (to_complex_ReprN (policy_of sch (extract_policy args)) 0%Z im ds f (policy_ok sch Hs _) Rf P) as (o & -> & Ro); reflexivity.
  - destruct (to_complex3_ReprN s (policy_of sch (extract_policy args)) 0%Z [] im ds f Ho (policy_ok sch Hs _) Rf P L3) as (o & -> & Ro); reflexivity.
Qed.
Print Assumptions C173_unchanged.

(** ** C174  estimate_gaussian_params_2d *)
(** the number of iterations and the tolerance that the arguments after the second ask for *)
Definition asks (parse_double : str -> res R) (rest : list str) (n : nat) (t : R) : Prop :=
  match rest with [] => n = 1000 | a :: _ => parse_size a = Ok n end /\ match rest with [] | [_] => t = (1 / 10 ^ 7)%R | _ :: b :: _ => parse_double b = Ok t end.
(** the picture of numbers: of doubles, or of integers *)
Definition plain_picture (v : rval) (w h : nat) (f : nat -> nat -> R) : Prop :=
  match v with
  | VReal im => Repr im w h f
  | VInt t im => is_bool t = false /\ exists g, Repr im w h g /\ forall x y, f x y = IZR (g x y)
  | _ => False
  end.
Lemma estimate_step {V F} load_file as_val (of_params : gparams -> any V) parse_double args i out rest (st : state V F) v n t r :
  args_filter args = i :: out :: rest -> asks parse_double rest n t -> stands_for load_file as_val st i v ->
  estimate_command V F load_file as_val of_params parse_double args st r <->
  exists q, val_estimate n t v q /\ r = caught V F st (let* p := q in
    if dollar out then Ok (mkState V F (ws_store V (tl out) (of_params p) (vars V F st)) (files V F st)) else Ok st).
Proof.
  intros Fa (An & At) (u & Lu & Au); unfold estimate_command; rewrite scalar_filter, Fa; unfold load; rewrite Lu; cbn [need bind]; rewrite Au; cbn [need bind].
  replace (match nth_error rest 0 with Some a => parse_size a | None => Ok 1000 end) with (@Ok nat n) by (destruct rest; cbn [nth_error]; [congruence | auto]).
  cbn [bind].
  replace (match nth_error rest 1 with Some a => parse_double a | None => Ok (/ 10 ^ 7)%R end) with (@Ok R t); [cbn [bind]; reflexivity|].
  destruct rest as [|a [|b rest]]; cbn [nth_error]; auto; rewrite At; f_equal; lra.
Qed.
Lemma plain_estimate v w h f n t r : plain_picture v w h f -> exists im, Repr im w h f /\ (val_estimate n t v r <-> estimate im n t r).
Proof.
  destruct v as [im|ty im| | | | | | | |]; cbn [plain_picture val_estimate]; try contradiction; [intros Rf; exists im; split; [exact Rf | reflexivity]|].
  intros (B & g & Rg & E); exists (mkImage (dims im) (map IZR (pix im))); rewrite B; split; [|reflexivity].
  destruct Rg as (D & L & H); repeat split; cbn [dims pix]; auto; [rewrite map_length; auto|]; intros x y X Y; rewrite nth_error_map, (H x y X Y), E; reflexivity.
Qed.
(** whatever the policy and the order of the sums there is one outcome: the parameters are stored in the variable; the deviations are at least
    10^-6 and the correlation is at most 0.999; more iterations never fit worse, and a picture that is the figure of the stored parameters
    keeps them *)
Theorem C174_estimate {V F} load_file as_val (of_params : gparams -> any V) parse_double args i out rest (st : state V F) v w h f n t :
  args_filter args = i :: out :: rest -> asks parse_double rest n t -> stands_for load_file as_val st i v -> plain_picture v w h f -> 0 < w -> 0 < h -> dollar out = true ->
  let store p st := mkState V F (ws_store V (tl out) (of_params p) (vars V F st)) (files V F st) in
  let run args st r := estimate_command V F load_file as_val of_params parse_double args st r in
  exists p, (forall r, run args st r <-> r = Ok (store p st)) /\
    (/ 10 ^ 6 <= g_sx p)%R /\ (/ 10 ^ 6 <= g_sy p)%R /\ (- (999 / 1000) <= g_rho p <= 999 / 1000)%R /\
    (forall args' rest' i' st' m, args_filter args' = i' :: out :: rest' -> asks parse_double rest' m t -> stands_for load_file as_val st' i' v -> n <= m ->
       exists q, (forall r, run args' st' r <-> r = Ok (store q st')) /\ (misfit w h f (par q) <= misfit w h f (par p))%R /\
         ((forall x y, x < w -> y < h -> f x y = hump (par p) (INR x) (INR y)) -> q = p)).
Proof.
  intros Fa An St Pv Pw Ph Do store run.
  assert (R1 : forall args i rest st n, args_filter args = i :: out :: rest -> asks parse_double rest n t -> stands_for load_file as_val st i v ->
    forall im, Repr im w h f -> (forall q, val_estimate n t v q <-> estimate im n t q) ->
    forall p, (forall r, estimate im n t r <-> r = Ok p) -> forall r, run args st r <-> r = Ok (store p st)).
  { intros args' i' rest' st' n' Fa' An' St' im Rf HV p Hp r; unfold run; rewrite (estimate_step _ _ _ _ _ _ _ _ _ _ _ _ _ Fa' An' St'), Do.
    split; [intros (q & Hq & ->); apply HV, Hp in Hq; subst q; reflexivity | intros ->; exists (Ok p); split; [apply HV, Hp; reflexivity | reflexivity]]. }
  destruct (plain_estimate v w h f n t (Ok (mkGP 0 0 0 0 0 0)) Pv) as (im & Rf & _).
  assert (HV : forall n q, val_estimate n t v q <-> estimate im n t q).
  { intros n' q; destruct (plain_estimate v w h f n' t q Pv) as (im' & Rf' & ->); rewrite (Repr_unique im im' w h f f Rf Rf' (fun _ _ _ _ => eq_refl)); reflexivity. }
  destruct (C111_result im w h f n t Rf Pw Ph) as (p & Hp & S1 & S2 & S3).
  exists p; split; [eapply R1; eauto|]; split; [exact S1|]; split; [exact S2|]; split; [exact S3|].
  intros args' rest' i' st' m Fa' An' St' Hm; destruct (C111_result im w h f m t Rf Pw Ph) as (q & Hq & _).
  exists q; split; [eapply R1; eauto|]; split; [eapply C111_improves; eauto; [apply Hp; reflexivity | apply Hq; reflexivity]|].
  intros HP; assert (E : estimate im m t (Ok p)) by (eapply C112_perfect_kept; eauto; apply Hp; reflexivity).
  apply Hq in E; congruence.
Qed.
Print Assumptions C174_estimate.
(** without iterations: the first brightest pixel, and the height there *)
Theorem C174_first_guess {V F} load_file as_val (of_params : gparams -> any V) parse_double args i out rest (st : state V F) v w h f t r :
  args_filter args = i :: out :: rest -> asks parse_double rest 0 t -> stands_for load_file as_val st i v -> plain_picture v w h f -> 0 < w -> 0 < h -> dollar out = true ->
  estimate_command V F load_file as_val of_params parse_double args st r ->
  exists p X Y, r = Ok (mkState V F (ws_store V (tl out) (of_params p) (vars V F st)) (files V F st)) /\
    X < w /\ Y < h /\ g_amp p = f X Y /\ g_x0 p = INR X /\ g_y0 p = INR Y /\ (forall x y, x < w -> y < h -> (f x y <= f X Y)%R) /\
    (forall x y, x < w -> before x y X Y -> (f x y < f X Y)%R).
Proof.
  intros Fa An St Pv Pw Ph Do HR; apply (estimate_step _ _ _ _ _ _ _ _ _ _ _ _ _ Fa An St) in HR as (q & Hq & Er).
  destruct (plain_estimate v w h f 0 t q Pv) as (im & Rf & HV); apply HV in Hq; destruct (C111_result im w h f 0 t Rf Pw Ph) as (p & Hp & _).
  pose proof (proj1 (Hp _) Hq); subst q; rewrite Do in Er; destruct (C111_guess im w h f t p Rf Pw Ph Hq) as (X & Y & H1 & H2 & H3 & H4 & H5 & H6 & H7 & _).
  exists p, X, Y; repeat split; auto.
Qed.
Print Assumptions C174_first_guess.
(** a result that is not a variable, missing arguments, unknown variables, arguments that cannot be read, other values: nothing changes *)
Theorem C174_unchanged {V F} load_file as_val (of_params : gparams -> any V) parse_double args (st : state V F) r :
  length (args_filter args) < 2 \/
  (exists i out rest, args_filter args = i :: out :: rest /\
     ((exists a rest' e, rest = a :: rest' /\ parse_size a = Throw e) \/
      (exists a b rest' n e, rest = a :: b :: rest' /\ parse_size a = Ok n /\ parse_double b = Throw e) \/
      (exists n t, asks parse_double rest n t /\
        ((forall p, ~ stands_for load_file as_val st i p) \/
         exists v, stands_for load_file as_val st i v /\
           ((dollar out = false /\ exists w h f, plain_picture v w h f /\ 0 < w /\ 0 < h) \/
            (exists ty im, v = VInt ty im /\ is_bool ty = true) \/
            (exists im, v = VReal im /\ length (dims im) <> 2) \/
            match v with VReal _ | VInt _ _ => False | _ => True end))))) ->
  estimate_command V F load_file as_val of_params parse_double args st r <-> r = Ok st.
Proof.
  intros [L|(i & out & rest & Fa & H)].
  { unfold estimate_command; rewrite scalar_filter; destruct (args_filter args) as [|i [|out rest]]; try reflexivity; cbn [length] in L; lia. }
  destruct H as [(a & rest' & e & -> & E)|[(a & b & rest' & n & e & -> & En & E)|(n & t & An & H)]].
  - unfold estimate_command; rewrite scalar_filter, Fa; cbn [nth_error]; rewrite E; reflexivity.
  - unfold estimate_command; rewrite scalar_filter, Fa; cbn [nth_error]; rewrite En; cbn [bind]; rewrite E; reflexivity.
  - destruct H as [H|(v & St & H)].
    + unfold estimate_command; rewrite scalar_filter, Fa; destruct An as (An & At).
      replace (match nth_error rest 0 with Some a => parse_size a | None => Ok 1000 end) with (@Ok nat n) by (destruct rest; cbn [nth_error]; [congruence | auto]).
      cbn [bind].
      replace (match nth_error rest 1 with Some a => parse_double a | None => Ok (/ 10 ^ 7)%R end) with (@Ok R t)
        by (destruct rest as [|a [|b rest]]; cbn [nth_error]; auto; rewrite At; f_equal; lra).
      cbn [bind]; unfold load; destruct (load_arg V F load_file st i) as [u|] eqn:Lu; cbn [need bind]; [|reflexivity].
      destruct (as_val u) as [p|] eqn:Au; cbn [need bind]; [|reflexivity]; exfalso; apply (H p); exists u; auto.
    + rewrite (estimate_step _ _ _ _ _ _ _ _ _ _ _ _ _ Fa An St).
      assert (TH : forall e, (forall q, val_estimate n t v q <-> q = Throw e) -> (exists q, val_estimate n t v q /\ r = caught V F st (let* p := q in
        if dollar out then Ok (mkState V F (ws_store V (tl out) (of_params p) (vars V F st)) (files V F st)) else Ok st)) <-> r = Ok st).
      { intros e HT; split; [intros (q & Hq & ->); apply HT in Hq; subst q; reflexivity | intros ->; exists (Throw e); split; [apply HT; reflexivity | reflexivity]]. }
      destruct H as [(Do & w & h & f & Pv & Pw & Ph)|[(ty & im & -> & B)|[(im & -> & N2)|H]]].
      * rewrite Do; split; [intros (q & Hq & ->)|intros ->].
        -- destruct (plain_estimate v w h f n t q Pv) as (im & Rf & HV); apply HV in Hq; destruct (C111_result im w h f n t Rf Pw Ph) as (p & Hp & _).
           apply Hp in Hq; subst q; reflexivity.
        -- destruct (plain_estimate v w h f n t (Ok (mkGP 0 0 0 0 0 0)) Pv) as (im & Rf & _); destruct (C111_result im w h f n t Rf Pw Ph) as (p & Hp & _).
           exists (Ok p); split; [|reflexivity]; destruct (plain_estimate v w h f n t (Ok p) Pv) as (im' & Rf' & HV).
           rewrite (Repr_unique im im' w h f f Rf Rf' (fun _ _ _ _ => eq_refl)) in Hp; apply HV, Hp; reflexivity.
      * apply (TH InvalidArgument); intros q; cbn [val_estimate]; rewrite B; reflexivity.
      * apply (TH InvalidArgument); intros q; cbn [val_estimate]; apply C111_errors; exact N2.
      * apply (TH InvalidArgument); intros q; destruct v; cbn [val_estimate]; try reflexivity; destruct H.
Qed.
Print Assumptions C174_unchanged.

(** ** concrete sessions *)
Definition room (l : list (str * rval)) : state (rval + gparams) unit := mkState _ unit (map (fun p => (fst p, (0, inl (snd p)))) l) tt.
Definition no_load (_ : unit) (_ : str) : option (any (rval + gparams)) := None.
Definition no_save (_ : unit) (_ : str) (_ : any (rval + gparams)) : option unit := None.
Definition seen (v : any (rval + gparams)) : option rval := match snd v with inl p => Some p | _ => None end.
Definition kept (p : rval) : any (rval + gparams) := (0, inl p).
Definition noted (p : gparams) : any (rval + gparams) := (0, inr p).
Definition four : list (image R) := [mkImage [1; 1] [3%R]; mkImage [1; 1] [5%R]].
(** two pictures of one pixel, 3 and 5: the coefficients are 8/sqrt 2 and a multiple of their difference *)
Example C171_case : exists o a b, dct3_command _ unit no_load no_save seen kept (fun _ => seq0) grid [lit "par"; lit "$v"; lit "$w"] (room [(lit "v", VStack HDeque four)]) =
    Ok (mkState _ unit [(lit "v", kept (VStack HDeque four)); (lit "w", kept (VStack HVector o))] tt) /\
  o = [mkImage [1; 1] [a]; mkImage [1; 1] [b]] /\ a = (8 * sqrt 2)%R.
Proof.
  destruct (@C171_coefficients _ unit no_load no_save seen kept (fun _ => seq0) grid [lit "par"; lit "$v"; lit "$w"] (lit "$v") (lit "$w") []
    (room [(lit "v", VStack HDeque four)]) HDeque four 1 1 2 (fun z _ _ => if z =? 0 then 3%R else 5%R)) as (o & E & L & H).
  - apply sched_ok_grid.
  - reflexivity.
  - right; reflexivity.
  - eexists; split; reflexivity.
  - split; [reflexivity|]; intros [|[|z]] Z; try lia; eexists; (split; [reflexivity|]); repeat split; intros [|x] [|y] X Y; try lia; reflexivity.
  - destruct (H 0 ltac:(lia)) as (p & Ep & Dp & Lp & Hp); destruct (H 1 ltac:(lia)) as (q & Eq & Dq & Lq & Hq).
    destruct p as [dp [|a [|]]]; try discriminate; destruct q as [dq [|b [|]]]; try discriminate; cbn [dims pix] in *; subst dp dq.
    exists o, a, b; split; [rewrite E; reflexivity|]; split.
    + destruct o as [|p [|q [|]]]; try discriminate; cbn [nth_error] in Ep, Eq; congruence.
    + specialize (Hp 0 0 ltac:(lia) ltac:(lia)); cbn [nth_error Nat.mul Nat.add] in Hp; injection Hp as ->; unfold coefficient3, phase, weight; cbn [sum INR Nat.eqb].
      rewrite !Rmult_0_r; unfold Rdiv; rewrite !Rmult_0_l, cos_0.
      assert (S0 : (0 < sqrt 2)%R) by (apply sqrt_lt_R0; lra); assert (S2 : (sqrt 2 * sqrt 2 = 2)%R) by (apply sqrt_sqrt; lra).
      assert (I2 : (/ sqrt 2 = sqrt 2 / 2)%R) by (apply Rmult_eq_reg_l with (sqrt 2); [rewrite Rinv_r by lra; lra | lra]); rewrite I2.
      replace (/ (1 * 1 * (1 + 1)))%R with (1 / 2)%R by lra.
      transitivity (8 * (sqrt 2 * sqrt 2) * sqrt 2 / 8 * 4)%R; [field | rewrite S2; lra].
Qed.
(** a green pixel in HSV *)
Example C172_case : exists o, hsv2rgb_command _ unit no_load no_save seen kept (fun _ => seq0) [lit "$h"; lit "$o"] (room [(lit "h", VHsv (mkImage [1; 1] [[120; 1; 255]%R]))]) =
    Ok (mkState _ unit [(lit "h", kept (VHsv (mkImage [1; 1] [[120; 1; 255]%R]))); (lit "o", kept (VRgb o))] tt) /\ at_ o [0; 0] = Ok [0; 255; 0]%Z.
Proof.
  exists (mkImage [1; 1] [[0; 255; 0]%Z]); split; [|reflexivity].
  assert (E : hsv2rgb [120; 1; 255]%R = Ok [0; 255; 0]%Z).
  { rewrite (hsv2rgb_sector 2) by (try lia; lra); cbn [sector]; cbv zeta.
    replace (255 * (1 - 1))%R with (IZR 0) by lra; replace (255 * (1 - (1 - (120 / 60 - 2)) * 1))%R with (IZR 0) by lra; change 255%R with (IZR 255).
    rewrite !Int_part_IZR; reflexivity. }
  unfold hsv2rgb_command; rewrite (val_step _ _ _ _ _ _ [lit "$h"; lit "$o"] (room [(lit "h", VHsv (mkImage [1; 1] [[120; 1; 255]%R]))]) (lit "$h") (lit "$o") []
    (VHsv (mkImage [1; 1] [[120; 1; 255]%R]))); [|reflexivity|eexists; split; reflexivity].
  unfold val_hsv2rgb, hsv2rgb_policy; rewrite (transform_seq_ok _ _ _ (fun _ => [0; 255; 0]%Z)); [reflexivity | exact I |].
  intros a [<-|[]]; exact E.
Qed.
(** doubles become complex numbers; bytes stay *)
Example C173_case :
  let st := room [(lit "b", VInt (mkIty 8 false) (mkImage [1; 1] [7%Z])); (lit "d", VReal (mkImage [2; 1] [1%R; 2%R]))] in
  to_complex_command _ unit no_load no_save seen kept (fun _ => seq0) seq0 [lit "$d"; lit "$o"] st =
    Ok (mkState _ unit (vars _ unit st ++ [(lit "o", kept (VComplex (mkImage [2; 1] [(1, 0); (2, 0)]%R)))]) tt) /\
  to_complex_command _ unit no_load no_save seen kept (fun _ => seq0) seq0 [lit "$b"; lit "$o"] st = Ok st.
Proof. split; reflexivity. Qed.
(** that every picture of numbers is converted is false: of integers and of RGB pixels nothing is stored, although the conversion succeeds *)
Theorem C173_integers_refuted : exists (st : state (rval + gparams) unit) im o, stands_for no_load seen st (lit "$b") (VInt (mkIty 8 false) im) /\
  to_complex None 0%Z im = Ok o /\
  to_complex_command _ unit no_load no_save seen kept (fun _ => seq0) seq0 [lit "$b"; lit "$o"] st = Ok st /\ map_find (lit "o") (vars _ unit st) = None.
Proof.
  exists (room [(lit "b", VInt (mkIty 8 false) (mkImage [1; 1] [7%Z]))]), (mkImage [1; 1] [7%Z]), (mkImage [1; 1] [(7, 0)]%Z).
  split; [eexists; split; reflexivity|]; split; [reflexivity|]; split; reflexivity.
Qed.
Print Assumptions C173_integers_refuted.
(** a bright pixel at (1, 0), without iterations *)
Example C174_case : exists p, (forall r, estimate_command _ unit no_load seen noted (fun _ => Throw InvalidArgument) [lit "$d"; lit "$o"; lit "0"]
    (room [(lit "d", VReal (mkImage [2; 1] [1%R; 2%R]))]) r <->
      r = Ok (mkState _ unit [(lit "d", kept (VReal (mkImage [2; 1] [1%R; 2%R]))); (lit "o", noted p)] tt)) /\ g_x0 p = 1%R /\ g_y0 p = 0%R /\ g_amp p = 2%R.
Proof.
  set (im := mkImage [2; 1] [1%R; 2%R]); set (st := room [(lit "d", VReal im)]); set (args := [lit "$d"; lit "$o"; lit "0"]).
  assert (Rf : Repr im 2 1 (fun x _ => INR (x + 1))) by (repeat split; intros [|[|x]] [|y] X Y; try lia; cbn; f_equal; lra).
  assert (A : asks (fun _ => Throw InvalidArgument) [lit "0"] 0 (1 / 10 ^ 7)) by (split; reflexivity).
  assert (St : stands_for no_load seen st (lit "$d") (VReal im)) by (eexists; split; reflexivity).
  destruct (C174_estimate no_load seen noted (fun _ => Throw InvalidArgument) args (lit "$d") (lit "$o") [lit "0"] st (VReal im) 2 1 _ 0 _ eq_refl A St Rf
    ltac:(lia) ltac:(lia) eq_refl) as (p & Hp & _).
  destruct (C174_first_guess no_load seen noted (fun _ => Throw InvalidArgument) args (lit "$d") (lit "$o") [lit "0"] st (VReal im) 2 1 _ _ _ eq_refl A St Rf
    ltac:(lia) ltac:(lia) eq_refl (proj2 (Hp _) eq_refl)) as (q & X & Y & E & HX & HY & H1 & H2 & H3 & H4 & _).
  exists p; split; [exact Hp|].
  assert (q = p) by (injection E; auto); subst q.
  assert (Y = 0) by lia; assert (X = 1) by (destruct X as [|[|]]; [|reflexivity|lia]; specialize (H4 1 0 ltac:(lia) ltac:(lia)); cbn in H4; lra); subst.
  rewrite H1, H2, H3; cbn; repeat split; lra.
Qed.
