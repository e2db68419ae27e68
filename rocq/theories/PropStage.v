(** PropStage.v - the commands dct2, idct2, rotate, lanczos_resample, normalize and gaussian_figure_2d in a session: C158 to C161. *)
From Coq Require Import Reals Lra ZifyBool ZifyNat Ascii String.
From Verif Require Import Base CliModel CliProofs PipeProofs CommandModel CommandProofs ArithModel ArithProofs.
From Verif Require Import ConvModel BigSum RSum ImageModel ImageFacts IndexModel ImageProofs GeomModel GeomProofs PixelModel PixelProofs OField JacobiModel SiftModel
  PropBmp BmpModel TurnModel TurnProofs PropTurn PropSift GaussModel GaussProofs PropGauss LanczosModel LanczosProofs PropScale
  FrameModel FrameProofs PropFrame FourierModel FourierProofs PropFourier AngleModel StageModel.
From Coq Require Import Rdefinitions.
Open Scope nat_scope.
Ltac Zify.zify_post_hook ::= Z.div_mod_to_equations.

(** ** specification *)
(** the argument [a] stands for the picture [p]: a variable, or a file *)
Definition stands {V F} load_file (as_pic : any V -> option rpic) (st : state V F) (a : str) (p : rpic) : Prop :=
  exists v, load_arg V F load_file st a = Some v /\ as_pic v = Some p.
(** the picture [p] has the extents w x h, and the channels of the pixel (x, y) have the values [f x y] *)
Definition depicts (p : rpic) (w h : nat) (f : nat -> nat -> list R) : Prop :=
  match p with
  | GReal im => exists g, Repr im w h g /\ forall x y, x < w -> y < h -> f x y = [g x y]
  | GInt t im => exists g, Repr im w h g /\ forall x y, x < w -> y < h -> f x y = [IZR (g x y)] /\ (lowest t <= g x y <= highest t)%Z
  | CReal im => exists g, Repr im w h g /\ forall x y, x < w -> y < h -> f x y = g x y /\ length (g x y) = 3
  | CByte im => exists g, Repr im w h g /\ forall x y, x < w -> y < h -> f x y = map IZR (g x y) /\ length (g x y) = 3 /\ Forall (fun c => 0 <= c <= 255)%Z (g x y)
  end.
(** of doubles *)
Definition doubles (p : rpic) : Prop := match p with GReal _ | CReal _ => True | _ => False end.
(** of one type *)
Definition same_kind (p q : rpic) : Prop :=
  match p, q with GReal _, GReal _ | CReal _, CReal _ | CByte _, CByte _ => True | GInt t _, GInt u _ => t = u | _, _ => False end.
(** an operation on each channel *)
Definition each (T : (nat -> nat -> R) -> nat -> nat -> R) (n : nat) (f : nat -> nat -> list R) (x y : nat) : list R :=
  map (fun k => T (fun a b => nth k (f a b) 0%R) x y) (seq 0 n).
Definition channels (p : rpic) : nat := match p with GReal _ | GInt _ _ => 1 | _ => 3 end.
(** the coefficient of the frequencies x and y *)
Definition coefficient (w h : nat) (c : nat -> nat -> R) (x y : nat) : R :=
  (4 * sqrt 2 * weight x * weight y / (INR w * INR h) * sum (fun n => sum (fun m => c m n * cos (phase w m x) * cos (phase h n y)) w) h)%R.

(** ** sessions *)
Section Load.
  Context {V F : Type} (load_file : F -> str -> option (any V)) (save_file : F -> str -> any V -> option F).
  Variable as_pic : any V -> option rpic.
  Variable of_pic : rpic -> any V.
  Lemma pic_step extra op args st i out rest a : args_filter args = i :: out :: rest -> extra <= length rest -> stands load_file as_pic st i a ->
    pic_command V F load_file save_file as_pic of_pic extra op args st =
      match (let* f := op (extract_policy args) rest in f a) with Ok o => Ok (save_arg V F save_file st out (of_pic o)) | Throw _ => Ok st | UB => UB end.
  Proof.
    intros Fa L (v & Lv & Av); unfold pic_command, transform_command, load; rewrite Fa.
    replace (length rest <? extra) with false by (symmetry; apply Nat.ltb_ge; exact L).
    destruct (op (extract_policy args) rest) as [f| |]; cbn [bind caught]; [|reflexivity|reflexivity].
    rewrite Lv; cbn [need bind]; rewrite Av; cbn [need bind]; destruct (f a); reflexivity.
  Qed.
  Lemma pic_refused extra op args st i out rest : args_filter args = i :: out :: rest ->
    length rest < extra \/ (exists e, op (extract_policy args) rest = Throw e) ->
    pic_command V F load_file save_file as_pic of_pic extra op args st = Ok st.
  Proof.
    intros Fa H; unfold pic_command, transform_command; rewrite Fa; destruct (Nat.ltb_spec (length rest) extra); [reflexivity|].
    destruct H as [H|(e & ->)]; [lia | reflexivity].
  Qed.
  Lemma pic_few extra op args st : length (args_filter args) < 2 + extra -> pic_command V F load_file save_file as_pic of_pic extra op args st = Ok st.
  Proof.
    intros H; unfold pic_command, transform_command; destruct (args_filter args) as [|i [|out rest]]; try reflexivity; cbn [length] in H.
    destruct (Nat.ltb_spec (length rest) extra); [reflexivity | lia].
  Qed.
  Lemma stands_saved st a p : (forall p, as_pic (of_pic p) = Some p) -> dollar a = true -> stands load_file as_pic (save_arg V F save_file st a (of_pic p)) a p.
  Proof. intros A D; exists (of_pic p); split; [apply load_saved, D | apply A]. Qed.
End Load.

(** ** channels *)
Lemma each3 {A B} s (d1 : A) (d : list B) op im w h f w' h' (G : nat -> nat -> nat -> B) : sched1_ok s -> Repr im w h f ->
  0 < w -> 0 < h -> 0 < w' -> 0 < h' -> (forall x y, x < w -> y < h -> length (f x y) = 3) ->
  (forall k p, k < 3 -> Repr p w h (fun x y => nth k (f x y) d1) -> exists o, op p = Ok o /\ Repr o w' h' (G k)) ->
  exists o, apply_each3 s d1 d op im = Ok o /\ Repr o w' h' (fun x y => [G 0 x y; G 1 x y; G 2 x y]).
Proof.
  intros Hs Rf Pw Ph Pw' Ph' L3 H; pose proof (proj1 (Repr_ReprN _ _ _ _) Rf) as RN.
  destruct (apply_each3_ReprN s d1 d op im [w; h] _ (fun k idx => G k (nth 0 idx 0) (nth 1 idx 0)) Hs RN) with (ds' := [w'; h']) as (o & E & Ro).
  - rewrite prodn2; nia.
  - intros i I; inversion I as [|x ? ? ? X I']; subst; inversion I' as [|y ? ? ? Y I'']; subst; inversion I''; subst; cbn [nth]; apply L3; auto.
  - rewrite prodn2; nia.
  - intros k pl Hk (gk & Rk & Ek); destruct (H k pl Hk) as (q & Eq & Rq).
    + apply Repr_ReprN; eapply ReprN_ext; [exact Rk|]; intros i I; symmetry; apply nth_error_nth; rewrite Ek by auto; reflexivity.
    + exists q; split; [exact Eq | apply Repr_ReprN, Rq].
  - exists o; split; [exact E | apply Repr_ReprN; exact Ro].
Qed.
Lemma length3 {A} (l : list A) d : length l = 3 -> l = [nth 0 l d; nth 1 l d; nth 2 l d].
Proof. destruct l as [|a [|b [|c [|]]]]; cbn; intros; try discriminate; reflexivity. Qed.

(** ** C158  the cosine transform and its inverse *)
Lemma idct2_value {A} (conv : A -> R) sg im w h f : sched_ok sg -> Repr im w h f -> 0 < w -> 0 < h ->
  exists o, idct2 conv sg im = Ok o /\ Repr o w h (idct_value 1 h w (fun _ x y => conv (f x y)) 0).
Proof.
  intros Hs HR Hw Hh; unfold idct2; destruct (cast_Repr conv im w h f Hw Hh HR) as (v & -> & Rv); cbn [bind].
  destruct (idct3_one_plane_spec sg [v] w h 1 _ 0 Hs (Vol_one v w h _ Rv) ltac:(lia)) as (o & Eo & Ro); exists o; auto.
Qed.
Lemma dct2_value {A} (conv : A -> R) sg im w h f : sched_ok sg -> Repr im w h f -> 0 < w -> 0 < h ->
  exists o, dct2 conv sg im = Ok o /\ Repr o w h (dct_value 1 h w (fun _ x y => conv (f x y)) 0) /\ Repr o w h (coefficient w h (fun x y => conv (f x y))).
Proof.
  intros Hs HR Hw Hh; destruct (C46_coefficients conv sg im w h f Hs HR Hw Hh) as (o & E & Ro); exists o; split; [exact E|]; split; [|exact Ro].
  revert E; unfold dct2; destruct (cast_Repr conv im w h f Hw Hh HR) as (v & -> & Rv); cbn [bind].
  destruct (dct3_one_plane_spec sg [v] w h 1 _ 0 Hs (Vol_one v w h _ Rv) ltac:(lia)) as (o' & -> & Ro'); intros E; injection E as <-; exact Ro'.
Qed.
Section Planes.
  Variable op : forall A, (A -> R) -> image A -> res (image R).
  Variable s : nat -> list nat.
  Hypothesis Hs : sched1_ok s.
  Variables (w h : nat) (T : (nat -> nat -> R) -> nat -> nat -> R).
  Hypothesis Pw : 0 < w.
  Hypothesis Ph : 0 < h.
  Hypothesis HT : forall c c', (forall x y, x < w -> y < h -> c x y = c' x y) -> forall x y, x < w -> y < h -> T c x y = T c' x y.
  Hypothesis Hop : forall A (conv : A -> R) im f, Repr im w h f -> exists o, op A conv im = Ok o /\ Repr o w h (T (fun x y => conv (f x y))).
  Definition planes (p : rpic) : res rpic :=
    match p with
    | GReal im => let* o := op R (fun v => v) im in Ok (GReal o)
    | GInt _ im => let* o := op Z IZR im in Ok (GReal o)
    | CReal im => let* o := apply_each3 s 0%R [] (op R (fun v => v)) im in Ok (CReal o)
    | CByte im => let* o := apply_each3 s 0%Z [] (op Z IZR) im in Ok (CReal o)
    end.
  Lemma planes_ok p f : depicts p w h f -> exists t, planes p = Ok t /\ depicts t w h (each T (channels p) f) /\ doubles t /\ channels t = channels p.
  Proof.
    destruct p as [im|t im|im|im]; cbn [depicts planes channels]; intros (g & Rg & Hg).
    - destruct (Hop R (fun v => v) im g Rg) as (o & -> & Ro); cbn [bind]; eexists; split; [reflexivity|]; split; [|split; [exact I | reflexivity]].
      eexists; split; [exact Ro|]; intros x y X Y; cbn [each map seq]; f_equal; apply HT; auto; intros a b Ha Hb; rewrite Hg by auto; reflexivity.
    - destruct (Hop Z IZR im g Rg) as (o & -> & Ro); cbn [bind]; eexists; split; [reflexivity|]; split; [|split; [exact I | reflexivity]].
      eexists; split; [exact Ro|]; intros x y X Y; cbn [each map seq]; f_equal; apply HT; auto; intros a b Ha Hb; rewrite (proj1 (Hg a b Ha Hb)); reflexivity.
    - destruct (each3 s 0%R [] (op R (fun v => v)) im w h g w h (fun k => T (fun x y => nth k (g x y) 0%R))) as (o & -> & Ro); try assumption.
      { intros; apply Hg; auto. }
      { intros k p _ Rp; apply (Hop R (fun v => v) p _ Rp). }
      cbn [bind]; eexists; split; [reflexivity|]; split; [|split; [exact I | reflexivity]].
      eexists; split; [exact Ro|]; intros x y X Y; split; [|reflexivity]; cbn [each map seq]; f_equal; [|f_equal; [|f_equal]];
        apply HT; auto; intros a b Ha Hb; rewrite (proj1 (Hg a b Ha Hb)); reflexivity.
    - destruct (each3 s 0%Z [] (op Z IZR) im w h g w h (fun k => T (fun x y => IZR (nth k (g x y) 0%Z)))) as (o & -> & Ro); try assumption.
      { intros; apply Hg; auto. }
      { intros k p _ Rp; apply (Hop Z IZR p _ Rp). }
      cbn [bind]; eexists; split; [reflexivity|]; split; [|split; [exact I | reflexivity]].
      eexists; split; [exact Ro|]; intros x y X Y; split; [|reflexivity]; cbn [each map seq]; f_equal; [|f_equal; [|f_equal]];
        apply HT; auto; intros a b Ha Hb; rewrite (proj1 (Hg a b Ha Hb)); change 0%R with (IZR 0); rewrite map_nth; reflexivity.
  Qed.
End Planes.
Lemma depicts_ext p w h f g : depicts p w h f -> (forall x y, x < w -> y < h -> f x y = g x y) -> depicts p w h g.
Proof. destruct p; cbn [depicts]; intros (k & Rk & Hk) E; exists k; split; auto; intros x y X Y; rewrite <- E by auto; apply Hk; auto. Qed.
Lemma depicts_length p w h f x y : depicts p w h f -> x < w -> y < h -> length (f x y) = channels p.
Proof.
  destruct p; cbn [depicts channels]; intros (k & Rk & Hk) X Y; try (rewrite Hk by auto; reflexivity); destruct (Hk x y X Y) as (-> & H); auto.
  rewrite map_length; apply H.
Qed.
Lemma each_nth T n f x y k : k < n -> nth k (each T n f x y) 0%R = T (fun a b => nth k (f a b) 0%R) x y.
Proof.
  intros K; unfold each; rewrite (nth_indep _ 0%R (T (fun a b => nth 0 (f a b) 0%R) x y)) by (rewrite map_length, seq_length; auto).
  rewrite (map_nth (fun k => T (fun a b => nth k (f a b) 0%R) x y)), seq_nth by auto; reflexivity.
Qed.
Lemma each_id n f x y : length (f x y) = n -> each (fun c => c) n f x y = f x y.
Proof.
  intros L; apply (nth_ext _ _ 0%R 0%R); [unfold each; rewrite map_length, seq_length; auto|].
  intros k K; unfold each in K; rewrite map_length, seq_length in K; rewrite each_nth by auto; reflexivity.
Qed.
Lemma each_each T U n f x y : (forall k, k < n -> T (fun a b => nth k (each U n f a b) 0%R) x y = nth k (f x y) 0%R) -> length (f x y) = n ->
  each T n (each U n f) x y = f x y.
Proof.
  intros H L; rewrite <- (each_id n f x y) by auto; unfold each at 1 3; apply map_ext_in; intros k K; apply in_seq in K; apply H; lia.
Qed.
Lemma sum_ext f g n : (forall i, i < n -> f i = g i) -> sum f n = sum g n.
Proof. induction n as [|n IH]; intros H; [reflexivity|]; cbn [sum]; rewrite IH, H; auto. Qed.
Lemma coefficient_ext w h c c' : (forall x y, x < w -> y < h -> c x y = c' x y) -> forall x y, x < w -> y < h -> coefficient w h c x y = coefficient w h c' x y.
Proof.
  intros E x y X Y; unfold coefficient; f_equal; apply sum_ext; intros n Hn; apply sum_ext; intros m Hm; rewrite E by auto; reflexivity.
Qed.
Definition fwd (w h : nat) (c : nat -> nat -> R) : nat -> nat -> R := dct_value 1 h w (fun _ => c) 0.
Definition bwd (w h : nat) (c : nat -> nat -> R) : nat -> nat -> R := idct_value 1 h w (fun _ => c) 0.
Lemma fwd_ext w h c c' : (forall x y, x < w -> y < h -> c x y = c' x y) -> forall x y, x < w -> y < h -> fwd w h c x y = fwd w h c' x y.
Proof. intros E x y X Y; unfold fwd; apply dct_value_ext; auto. Qed.
Lemma bwd_ext w h c c' : (forall x y, x < w -> y < h -> c x y = c' x y) -> forall x y, x < w -> y < h -> bwd w h c x y = bwd w h c' x y.
Proof. intros E x y X Y; unfold bwd; apply idct_value_ext; auto. Qed.
Lemma bwd_fwd w h c c' x y : 0 < w -> 0 < h -> x < w -> y < h -> (forall x y, x < w -> y < h -> c' x y = fwd w h c x y) -> bwd w h c' x y = c x y.
Proof.
  intros Pw Ph X Y E; unfold bwd.
  rewrite (idct_value_ext _ _ _ _ (dct_value 1 h w (fun _ => c))) by (intros a b d Ha Hb Hd; replace a with 0 by lia; apply E; auto).
  rewrite idct_dct_value by (auto; lia); reflexivity.
Qed.
Lemma fwd_bwd w h c c' x y : 0 < w -> 0 < h -> x < w -> y < h -> (forall x y, x < w -> y < h -> c' x y = bwd w h c x y) -> fwd w h c' x y = c x y.
Proof.
  intros Pw Ph X Y E; unfold fwd.
  rewrite (dct_value_ext _ _ _ _ (idct_value 1 h w (fun _ => c))) by (intros a b d Ha Hb Hd; replace a with 0 by lia; apply E; auto).
  rewrite dct_idct_value by (auto; lia); reflexivity.
Qed.
Lemma fwd_coefficient w h c x y : 0 < w -> 0 < h -> x < w -> y < h -> fwd w h c x y = coefficient w h c x y.
Proof.
  intros Pw Ph X Y; destruct (dct2_value (fun v : R => v) grid (img w h c) w h c sched_ok_grid (img_Repr w h c) Pw Ph) as (o & _ & R1 & R2).
  destruct R1 as (_ & _ & R1); destruct R2 as (_ & _ & R2); specialize (R1 x y X Y); specialize (R2 x y X Y); rewrite R2 in R1; injection R1 as E; symmetry; exact E.
Qed.
Lemma pic_dct_ok s sg p w h f : sched1_ok s -> sched_ok sg -> 0 < w -> 0 < h -> depicts p w h f ->
  exists t, pic_dct s sg p = Ok t /\ depicts t w h (each (fwd w h) (channels p) f) /\ doubles t /\ channels t = channels p.
Proof.
  intros Hs Hg Pw Ph D; apply (planes_ok (fun A conv im => dct2 conv sg im) s Hs w h (fwd w h) Pw Ph); [apply fwd_ext| |exact D].
  intros A conv im g Rg; destruct (dct2_value conv sg im w h g Hg Rg Pw Ph) as (o & E & Ro & _); exists o; auto.
Qed.
Lemma pic_idct_ok s sg p w h f : sched1_ok s -> sched_ok sg -> 0 < w -> 0 < h -> depicts p w h f ->
  exists t, pic_idct s sg p = Ok t /\ depicts t w h (each (bwd w h) (channels p) f) /\ doubles t /\ channels t = channels p.
Proof.
  intros Hs Hg Pw Ph D; apply (planes_ok (fun A conv im => idct2 conv sg im) s Hs w h (bwd w h) Pw Ph); [apply bwd_ext| |exact D].
  intros A conv im g Rg; apply (idct2_value conv sg im w h g Hg Rg Pw Ph).
Qed.

(** the command dct2 stores the coefficients of each channel as doubles, whatever the policy *)
Theorem C158_dct2 {V F} load_file save_file as_pic (of_pic : rpic -> any V) s sg args i out rest (st : state V F) p w h f :
  sched1_ok s -> sched_ok sg -> args_filter args = i :: out :: rest -> stands load_file as_pic st i p -> 0 < w -> 0 < h -> depicts p w h f ->
  exists t, dct2_command V F load_file save_file as_pic of_pic s sg args st = Ok (save_arg V F save_file st out (of_pic t)) /\
    doubles t /\ channels t = channels p /\ depicts t w h (each (coefficient w h) (channels p) f).
Proof.
  intros Hs Hg Fa St Pw Ph D; destruct (pic_dct_ok s sg p w h f Hs Hg Pw Ph D) as (t & E & Dt & B & C); exists t.
  unfold dct2_command; rewrite (pic_step load_file save_file as_pic of_pic 0 _ args st i out rest p Fa ltac:(lia) St); cbn [bind]; rewrite E; split; [reflexivity|].
  split; [exact B|]; split; [exact C|]; eapply depicts_ext; [exact Dt|]; intros x y X Y; unfold each; apply map_ext; intros k; apply fwd_coefficient; auto.
Qed.
Print Assumptions C158_dct2.

(** dct2 and then idct2 give back the values of the picture, as doubles; so do idct2 and then dct2.  Other variables keep their
    values *)
Theorem C158_round_trip {V F} load_file save_file as_pic (of_pic : rpic -> any V) s sg s' sg' args args' i mid out rest rest' (st : state V F) p w h f :
  sched1_ok s -> sched_ok sg -> sched1_ok s' -> sched_ok sg' -> (forall p, as_pic (of_pic p) = Some p) ->
  args_filter args = i :: mid :: rest -> args_filter args' = mid :: out :: rest' -> dollar mid = true -> dollar out = true ->
  stands load_file as_pic st i p -> 0 < w -> 0 < h -> depicts p w h f ->
  let dct := dct2_command V F load_file save_file as_pic of_pic in let idct := idct2_command V F load_file save_file as_pic of_pic in
  let back st' := exists o, stands load_file as_pic st' out o /\ doubles o /\ channels o = channels p /\ depicts o w h f /\
                    forall a, var_of a <> var_of mid -> var_of a <> var_of out -> load_arg V F load_file st' a = load_arg V F load_file st a in
  (exists st1 st2, dct s sg args st = Ok st1 /\ idct s' sg' args' st1 = Ok st2 /\ back st2) /\
  (exists st1 st2, idct s sg args st = Ok st1 /\ dct s' sg' args' st1 = Ok st2 /\ back st2).
Proof.
  intros Hs Hg Hs' Hg' A Fa Fb Dm Do St Pw Ph D dct idct back.
  assert (K : forall opa opb t o, opa p = Ok t -> opb t = Ok o -> doubles o -> channels o = channels p -> depicts o w h f ->
    exists st1 st2, pic_command V F load_file save_file as_pic of_pic 0 (fun _ _ => Ok opa) args st = Ok st1 /\
      pic_command V F load_file save_file as_pic of_pic 0 (fun _ _ => Ok opb) args' st1 = Ok st2 /\ back st2).
  { intros opa opb t o Ea Eb B C Dt; exists (save_arg V F save_file st mid (of_pic t)), (save_arg V F save_file (save_arg V F save_file st mid (of_pic t)) out (of_pic o)).
    rewrite (pic_step load_file save_file as_pic of_pic 0 _ args st i mid rest p Fa ltac:(lia) St); cbn [bind]; rewrite Ea; split; [reflexivity|].
    rewrite (pic_step load_file save_file as_pic of_pic 0 _ args' _ mid out rest' t Fb ltac:(lia)) by (apply stands_saved; auto); cbn [bind]; rewrite Eb; split; [reflexivity|].
    exists o; split; [apply stands_saved; auto|]; split; [exact B|]; split; [exact C|]; split; [exact Dt|].
    intros a N1 N2; rewrite !load_other by auto; reflexivity. }
  split.
  - destruct (pic_dct_ok s sg p w h f Hs Hg Pw Ph D) as (t & E & Dt & B & C).
    destruct (pic_idct_ok s' sg' t w h _ Hs' Hg' Pw Ph Dt) as (o & E' & Do' & B' & C').
    apply (K _ _ t o E E' B'); [congruence|]; eapply depicts_ext; [exact Do'|]; intros x y X Y; rewrite C.
    apply each_each; [|eapply depicts_length; eauto]; intros k Hk.
    apply (bwd_fwd w h (fun a b => nth k (f a b) 0%R)); auto; intros a b Ha Hb; apply each_nth; exact Hk.
  - destruct (pic_idct_ok s sg p w h f Hs Hg Pw Ph D) as (t & E & Dt & B & C).
    destruct (pic_dct_ok s' sg' t w h _ Hs' Hg' Pw Ph Dt) as (o & E' & Do' & B' & C').
    apply (K _ _ t o E E' B'); [congruence|]; eapply depicts_ext; [exact Do'|]; intros x y X Y; rewrite C.
    apply each_each; [|eapply depicts_length; eauto]; intros k Hk.
    apply (fwd_bwd w h (fun a b => nth k (f a b) 0%R)); auto; intros a b Ha Hb; apply each_nth; exact Hk.
Qed.
Print Assumptions C158_round_trip.

(** fewer than two arguments: nothing changes *)
Theorem C158_few {V F} load_file save_file as_pic (of_pic : rpic -> any V) s sg args (st : state V F) : length (args_filter args) < 2 ->
  dct2_command V F load_file save_file as_pic of_pic s sg args st = Ok st /\ idct2_command V F load_file save_file as_pic of_pic s sg args st = Ok st.
Proof. intros L; split; apply pic_few; exact L. Qed.
Print Assumptions C158_few.

(** ** C159  rotate *)
Lemma nonempty_up n r : (0 < r)%R -> rounded_up n r -> 0 < n.
Proof. intros P (_ & H); apply INR_lt; cbn [INR]; lra. Qed.
Lemma extent_pos w h r : 0 < w -> 0 < h -> (0 < INR w * Rabs (cos r) + INR h * Rabs (sin r))%R.
Proof.
  intros Pw Ph; apply lt_0_INR in Pw; apply lt_0_INR in Ph; pose proof (Rabs_pos (cos r)); pose proof (Rabs_pos (sin r)).
  destruct (Req_dec (cos r) 0) as [Z|N].
  - assert (sin r <> 0)%R by (pose proof (sin2_cos2 r) as Q; unfold Rsqr in Q; intros Z'; rewrite Z, Z' in Q; lra).
    assert (0 < Rabs (sin r))%R by (apply Rabs_pos_lt; auto); nra.
  - assert (0 < Rabs (cos r))%R by (apply Rabs_pos_lt; auto); nra.
Qed.
Lemma rounded_up_unique m n r : rounded_up m r -> rounded_up n r -> m = n.
Proof.
  intros (A1 & A2) (B1 & B2); destruct (Nat.lt_trichotomy m n) as [H|[H|H]]; auto; exfalso;
    [assert (INR m + 1 <= INR n)%R by (rewrite <- S_INR; apply le_INR; lia) | assert (INR n + 1 <= INR m)%R by (rewrite <- S_INR; apply le_INR; lia)]; lra.
Qed.
Lemma rounded_up_exists r : (0 <= r)%R -> exists n, rounded_up n r.
Proof.
  intros P; destruct (archimed (- r)) as (A1 & A2); exists (Z.to_nat (1 - up (- r))); unfold rounded_up.
  assert (0 <= 1 - up (- r))%Z by (assert (up (- r) < 2)%Z by (apply lt_IZR; lra); lia).
  rewrite INR_IZR_INZ, Z2Nat.id, minus_IZR by auto; lra.
Qed.
Lemma rotate_planes {A} (d : A) interp im w h f r val nw nh : Repr im w h f -> (Z.of_nat (w + h) < 2 ^ 64)%Z ->
  (forall x y, interp im x y = Ok (val x y)) -> (forall x y, x < w -> y < h -> val (INR x) (INR y) = f x y) ->
  rounded_up nw (INR w * Rabs (cos r) + INR h * Rabs (sin r)) -> rounded_up nh (INR h * Rabs (cos r) + INR w * Rabs (sin r)) ->
  exists o, rotate_shear d (PI / 2) interp im r = Ok o /\ Repr o nw nh (fun i j => val (source_x w nw nh r i j) (source_y h nw nh r i j)).
Proof.
  intros Rf B Hi Hx Cw Ch; destruct (rotate_shear_all d interp im w h f r val Rf B Hi Hx) as (nw' & nh' & o & E & Cw' & Ch' & Ro).
  assert (nw' = nw) as -> by (eapply rounded_up_unique; [exact Cw' | exact Cw]); assert (nh' = nh) as -> by (eapply rounded_up_unique; [exact Ch' | exact Ch]).
  exists o; auto.
Qed.
(** what a plane shows at the point (x, y): samples at whole positions, zero outside *)
Definition samples {A} (zero : A) (w h : nat) (f : nat -> nat -> A) (px py : R) (v : A) : Prop :=
  (forall x y, x < w -> y < h -> px = INR x -> py = INR y -> v = f x y) /\ ((px < 0 \/ INR w - 1 < px \/ py < 0 \/ INR h - 1 < py)%R -> v = zero).
Lemma turn_plane im w h f r nw nh : Repr im w h f -> (Z.of_nat (w + h) < 2 ^ 64)%Z ->
  rounded_up nw (INR w * Rabs (cos r) + INR h * Rabs (sin r)) -> rounded_up nh (INR h * Rabs (cos r) + INR w * Rabs (sin r)) ->
  exists o g, turn im r = Ok o /\ Repr o nw nh g /\ forall i j, samples 0%R w h f (source_x w nw nh r i j) (source_y h nw nh r i j) (g i j).
Proof.
  intros Rf B Cw Ch; destruct (C104_default im w h f Rf B) as (val & V & X & O).
  destruct (rotate_planes 0%R _ im w h f r val nw nh Rf B V X Cw Ch) as (o & E & Ro); exists o; eexists; split; [exact E|]; split; [exact Ro|].
  intros i j; split; [intros x y Hx Hy -> ->; apply X; auto | apply O].
Qed.
Lemma fin_int_r_range lo hi v : (lo <= 0 <= hi)%Z -> (lo <= fin_int_r lo hi v <= hi)%Z.
Proof.
  intros B; unfold fin_int_r, rltb; destruct (Rlt_dec (IZR hi) v); [lia|]; destruct (Rlt_dec v (IZR lo)); [lia|].
  destruct (Rlt_dec v 0) as [N|N].
  - pose proof (rtrunc_neg v N); assert (rtrunc v <= 0)%Z by (assert (rtrunc v < 1)%Z by (apply lt_IZR; lra); lia).
    assert (lo - 1 < rtrunc v)%Z by (apply lt_IZR; rewrite minus_IZR; lra); lia.
  - pose proof (rtrunc_nonneg v ltac:(lra)); assert (0 <= rtrunc v)%Z by (assert (-1 < rtrunc v)%Z by (apply lt_IZR; lra); lia).
    assert (rtrunc v <= hi)%Z by (apply le_IZR; lra); lia.
Qed.
Lemma bind_Ok {A B} (m : res A) (k : A -> res B) v : bind m k = Ok v -> exists a, m = Ok a /\ k a = Ok v.
Proof. destruct m as [a| |]; cbn [bind]; intros E; try discriminate; exists a; auto. Qed.
Lemma Ok_inj {A} (a b : A) : Ok a = Ok b -> a = b.
Proof. intros E; injection E as ->; reflexivity. Qed.
Lemma bicubic_range lo hi im x y v : (lo <= 0 <= hi)%Z -> bicubic_r IZR (fin_int_r lo hi) 0%Z im x y = Ok v -> (lo <= v <= hi)%Z.
Proof.
  intros B; unfold bicubic_r, bilinear_r; intros E.
  repeat (first [ apply bind_Ok in E as (? & _ & E) | match type of E with (if ?b then _ else _) = _ => destruct b end | apply Ok_inj in E as <-; first [apply fin_int_r_range; exact B | exact B] ]).
Qed.
Lemma each3_ex {A B} s (d1 : A) (d : list B) op im w h f w' h' (Q : nat -> (nat -> nat -> B) -> Prop) : sched1_ok s -> Repr im w h f ->
  0 < w -> 0 < h -> 0 < w' -> 0 < h' -> (forall x y, x < w -> y < h -> length (f x y) = 3) ->
  (forall k p, k < 3 -> Repr p w h (fun x y => nth k (f x y) d1) -> exists o g, op p = Ok o /\ Repr o w' h' g /\ Q k g) ->
  exists o G, apply_each3 s d1 d op im = Ok o /\ Repr o w' h' (fun x y => [G 0 x y; G 1 x y; G 2 x y]) /\ forall k, k < 3 -> Q k (G k).
Proof.
  intros Hs Rf Pw Ph Pw' Ph' L3 H.
  set (p := fun k => picture w h (fun x y => nth k (f x y) d1)).
  assert (Rp : forall k, Repr (p k) w h (fun x y => nth k (f x y) d1)) by (intros; apply picture_Repr).
  destruct (H 0 (p 0) ltac:(lia) (Rp 0)) as (o0 & g0 & E0 & R0 & Q0); destruct (H 1 (p 1) ltac:(lia) (Rp 1)) as (o1 & g1 & E1 & R1 & Q1);
    destruct (H 2 (p 2) ltac:(lia) (Rp 2)) as (o2 & g2 & E2 & R2 & Q2).
  set (G := fun k => match k with 0 => g0 | 1 => g1 | _ => g2 end).
  destruct (each3 s d1 d op im w h f w' h' G) as (o & E & Ro); try assumption.
  - intros k q Hk Rq; assert (q = p k) as -> by (eapply Repr_eq; [exact Rq | apply Rp]).
    destruct k as [|[|[|k]]]; [exists o0 | exists o1 | exists o2 | lia]; auto.
  - exists o, G; split; [exact E|]; split; [exact Ro|]; intros k Hk; destruct k as [|[|[|k]]]; auto; lia.
Qed.
Lemma turn_int_plane t im w h f r nw nh : Repr im w h f -> (Z.of_nat (w + h) < 2 ^ 64)%Z -> (lowest t <= 0 <= highest t)%Z ->
  (forall x y, x < w -> y < h -> (lowest t <= f x y <= highest t)%Z) ->
  rounded_up nw (INR w * Rabs (cos r) + INR h * Rabs (sin r)) -> rounded_up nh (INR h * Rabs (cos r) + INR w * Rabs (sin r)) ->
  exists o g, turn_int t im r = Ok o /\ Repr o nw nh g /\ (forall i j, lowest t <= g i j <= highest t)%Z /\
    forall i j, samples 0%Z w h f (source_x w nw nh r i j) (source_y h nw nh r i j) (g i j).
Proof.
  intros Rf B L0 L Cw Ch; destruct (C104_default_int (lowest t) (highest t) im w h f Rf B L) as (val & V & X & O).
  destruct (rotate_planes 0%Z _ im w h f r val nw nh Rf B V X Cw Ch) as (o & E & Ro); exists o; eexists; split; [exact E|]; split; [exact Ro|]; split.
  - intros i j; eapply bicubic_range; [exact L0 | apply V].
  - intros i j; split; [intros x y Hx Hy -> ->; apply X; auto | apply O].
Qed.
(** the types of integers whose values a double holds exactly *)
Definition exact_type (p : rpic) : Prop := match p with GInt t _ => (2 <= bits t <= 53)%Z | _ => True end.
Lemma type_zero t : (2 <= bits t)%Z -> (lowest t <= 0 <= highest t)%Z.
Proof. intros B; unfold lowest, highest; pose proof (Z.pow_pos_nonneg 2 (bits t - 1) ltac:(lia) ltac:(lia)); pose proof (Z.pow_pos_nonneg 2 (bits t) ltac:(lia) ltac:(lia)); destruct (signed t); lia. Qed.
(** the values of the pixels are those of the picture where the turned-back position is a pixel, and zero where it is outside *)
Lemma pic_turn_ok s p w h f r nw nh : sched1_ok s -> 0 < w -> 0 < h -> (Z.of_nat (w + h) < 2 ^ 64)%Z -> exact_type p -> depicts p w h f ->
  rounded_up nw (INR w * Rabs (cos r) + INR h * Rabs (sin r)) -> rounded_up nh (INR h * Rabs (cos r) + INR w * Rabs (sin r)) ->
  exists q g, pic_turn s r p = Ok q /\ same_kind p q /\ depicts q nw nh g /\
    forall i j, i < nw -> j < nh -> samples (repeat 0%R (channels p)) w h f (source_x w nw nh r i j) (source_y h nw nh r i j) (g i j).
Proof.
  intros Hs Pw Ph B T D Cw Ch.
  assert (0 < nw) by (eapply nonempty_up; [|exact Cw]; apply extent_pos; auto); assert (0 < nh) by (eapply nonempty_up; [|exact Ch]; apply extent_pos; auto).
  destruct p as [im|t im|im|im]; cbn [depicts] in D; destruct D as (k & Rk & Hk); cbn [pic_turn exact_type channels repeat same_kind] in *.
  - destruct (turn_plane im w h k r nw nh Rk B Cw Ch) as (o & g & -> & Ro & Sg); cbn [bind]; exists (GReal o), (fun i j => [g i j]).
    split; [reflexivity|]; split; [exact I|]; split; [exists g; auto|]; intros i j _ _; destruct (Sg i j) as (S1 & S2); split.
    + intros x y X Y E1 E2; rewrite Hk by auto; f_equal; auto.
    + intros O; f_equal; auto.
  - destruct (turn_int_plane t im w h k r nw nh Rk B) as (o & g & -> & Ro & Lg & Sg); auto; [apply type_zero; lia | intros; apply Hk; auto|].
    cbn [bind]; exists (GInt t o), (fun i j => [IZR (g i j)]).
    split; [reflexivity|]; split; [reflexivity|]; split; [exists g; auto|]; intros i j _ _; destruct (Sg i j) as (S1 & S2); split.
    + intros x y X Y E1 E2; rewrite (proj1 (Hk x y X Y)); do 2 f_equal; auto.
    + intros O; do 2 f_equal; auto.
  - rewrite (check2d_Repr _ _ _ _ Rk); cbn [bind].
    destruct (each3_ex s 0%R [0%R; 0%R; 0%R] (fun q => turn q r) im w h k nw nh
      (fun c g => forall i j, samples 0%R w h (fun x y => nth c (k x y) 0%R) (source_x w nw nh r i j) (source_y h nw nh r i j) (g i j))) as (o & G & -> & Ro & SG); try assumption.
    { intros; apply Hk; auto. }
    { intros c q _ Rq; apply (turn_plane q w h _ r nw nh Rq B Cw Ch). }
    cbn [bind]; exists (CReal o), (fun i j => [G 0 i j; G 1 i j; G 2 i j]); split; [reflexivity|]; split; [exact I|]; split; [eexists; split; [exact Ro|]; auto|].
    intros i j _ _; destruct (SG 0 ltac:(lia) i j) as (A0 & B0); destruct (SG 1 ltac:(lia) i j) as (A1 & B1); destruct (SG 2 ltac:(lia) i j) as (A2 & B2); split.
    + intros x y X Y E1 E2; destruct (Hk x y X Y) as (-> & L3); rewrite (length3 (k x y) 0%R L3); f_equal; [|f_equal; [|f_equal]]; auto.
    + intros O; rewrite B0, B1, B2 by exact O; reflexivity.
  - rewrite (check2d_Repr _ _ _ _ Rk); cbn [bind].
    destruct (each3_ex s 0%Z [0; 0; 0]%Z (fun q => turn_int (mkIty 8 false) q r) im w h k nw nh
      (fun c g => (forall i j, 0 <= g i j <= 255)%Z /\
        forall i j, samples 0%Z w h (fun x y => nth c (k x y) 0%Z) (source_x w nw nh r i j) (source_y h nw nh r i j) (g i j))) as (o & G & -> & Ro & SG); try assumption.
    { intros; apply Hk; auto. }
    { intros c q Hc Rq; apply (turn_int_plane (mkIty 8 false) q w h _ r nw nh Rq B); auto; [cbn; lia|].
      intros x y X Y; destruct (Hk x y X Y) as (_ & L3 & R3); apply (proj1 (Forall_forall _ _) R3), nth_In; lia. }
    cbn [bind]; exists (CByte o), (fun i j => map IZR [G 0 i j; G 1 i j; G 2 i j]); split; [reflexivity|]; split; [exact I|]; split.
    { eexists; split; [exact Ro|]; intros x y _ _; split; [reflexivity|]; split; [reflexivity|]; repeat constructor; apply SG; lia. }
    intros i j _ _; destruct (proj2 (SG 0 ltac:(lia)) i j) as (A0 & B0); destruct (proj2 (SG 1 ltac:(lia)) i j) as (A1 & B1); destruct (proj2 (SG 2 ltac:(lia)) i j) as (A2 & B2); split.
    + intros x y X Y E1 E2; destruct (Hk x y X Y) as (-> & L3 & _); rewrite (length3 (k x y) 0%Z L3); f_equal; f_equal; [|f_equal; [|f_equal]]; auto.
    + intros O; rewrite B0, B1, B2 by exact O; reflexivity.
Qed.

(** the command rotate, for every number that is given as the angle: extents that are just large enough, the values of the picture
    where the position turned back is a pixel, zero outside, the same type *)
Theorem C159_rotate {V F} load_file save_file as_pic (of_pic : rpic -> any V) parse_double s args i out angle rest (st : state V F) p w h f r :
  sched1_ok s -> args_filter args = i :: out :: angle :: rest -> parse_double angle = Ok r -> stands load_file as_pic st i p ->
  0 < w -> 0 < h -> (Z.of_nat (w + h) < 2 ^ 64)%Z -> exact_type p -> depicts p w h f ->
  exists nw nh q g, rotate_command V F load_file save_file as_pic of_pic parse_double s args st = Ok (save_arg V F save_file st out (of_pic q)) /\
    same_kind p q /\ depicts q nw nh g /\
    rounded_up nw (INR w * Rabs (cos r) + INR h * Rabs (sin r)) /\ rounded_up nh (INR h * Rabs (cos r) + INR w * Rabs (sin r)) /\
    forall i j, i < nw -> j < nh -> exists px py, turned_to w h nw nh r px py (INR i) (INR j) /\ samples (repeat 0%R (channels p)) w h f px py (g i j).
Proof.
  intros Hs Fa Pa St Pw Ph B T D.
  assert (P1 : (0 <= INR w * Rabs (cos r) + INR h * Rabs (sin r))%R) by (left; apply extent_pos; auto).
  assert (P2 : (0 <= INR h * Rabs (cos r) + INR w * Rabs (sin r))%R) by (left; apply extent_pos; auto).
  destruct (rounded_up_exists _ P1) as (nw & Cw); destruct (rounded_up_exists _ P2) as (nh & Ch).
  destruct (pic_turn_ok s p w h f r nw nh Hs Pw Ph B T D Cw Ch) as (q & g & E & K & Dq & Sg).
  exists nw, nh, q, g; unfold rotate_command.
  rewrite (pic_step load_file save_file as_pic of_pic 1 _ args st i out (angle :: rest) p Fa ltac:(cbn; lia) St); cbn [bind nth]; rewrite Pa; cbn [bind]; rewrite E.
  split; [reflexivity|]; split; [exact K|]; split; [exact Dq|]; split; [exact Cw|]; split; [exact Ch|].
  intros a b Ha Hb; eexists; eexists; split; [apply source_turned | apply Sg; auto].
Qed.
Print Assumptions C159_rotate.

(** by a whole number of turns, above all by 0: the picture itself *)
Theorem C159_unturned {V F} load_file save_file as_pic (of_pic : rpic -> any V) parse_double s args i out angle rest (st : state V F) p w h f (k : Z) :
  sched1_ok s -> args_filter args = i :: out :: angle :: rest -> parse_double angle = Ok (2 * PI * IZR k)%R -> stands load_file as_pic st i p ->
  0 < w -> 0 < h -> (Z.of_nat (w + h) < 2 ^ 64)%Z -> exact_type p -> depicts p w h f ->
  exists q, rotate_command V F load_file save_file as_pic of_pic parse_double s args st = Ok (save_arg V F save_file st out (of_pic q)) /\
    same_kind p q /\ depicts q w h f.
Proof.
  intros Hs Fa Pa St Pw Ph B T D.
  destruct (C159_rotate load_file save_file as_pic of_pic parse_double s args i out angle rest st p w h f _ Hs Fa Pa St Pw Ph B T D) as (nw & nh & q & g & E & K & Dq & Cw & Ch & Sg).
  assert (C1 : cos (2 * PI * IZR k) = 1%R) by (rewrite <- (Rplus_0_l (2 * PI * IZR k)), cos_turns; apply cos_0).
  assert (S0 : sin (2 * PI * IZR k) = 0%R) by (rewrite <- (Rplus_0_l (2 * PI * IZR k)), sin_turns; apply sin_0).
  rewrite C1, S0, Rabs_R0, Rabs_R1 in Cw, Ch.
  assert (nw = w) as -> by (eapply rounded_up_unique; [exact Cw | unfold rounded_up; lra]).
  assert (nh = h) as -> by (eapply rounded_up_unique; [exact Ch | unfold rounded_up; lra]).
  exists q; split; [exact E|]; split; [exact K|]; eapply depicts_ext; [exact Dq|]; intros x y X Y.
  destruct (Sg x y X Y) as (px & py & (T1 & T2) & S1 & _); cbv zeta in T1, T2; rewrite C1, S0 in T1, T2; apply S1; auto; lra.
Qed.
Print Assumptions C159_unturned.

(** no number, or no angle: nothing changes *)
Theorem C159_refused {V F} load_file save_file as_pic (of_pic : rpic -> any V) parse_double s args (st : state V F) :
  length (args_filter args) < 3 \/ (exists i out angle rest e, args_filter args = i :: out :: angle :: rest /\ parse_double angle = Throw e) ->
  rotate_command V F load_file save_file as_pic of_pic parse_double s args st = Ok st.
Proof.
  intros [L|(i & out & angle & rest & e & Fa & Pa)]; [apply pic_few; exact L|].
  eapply pic_refused; [exact Fa|]; right; exists e; cbn [nth]; rewrite Pa; reflexivity.
Qed.
Print Assumptions C159_refused.

(** ** C160  lanczos_resample *)
(** a value that is cut off to a whole number between lo and hi *)
Definition cut (lo hi : Z) (v : R) (z : Z) : Prop :=
  ((v < IZR lo /\ z = lo) \/ (IZR hi < v /\ z = hi) \/
   (IZR lo <= v <= IZR hi /\ ((0 <= v /\ IZR z <= v < IZR z + 1) \/ (v < 0 /\ IZR z - 1 < v <= IZR z))))%R.
(** a value as the type of [p] holds it *)
Definition held_as (p : rpic) (v u : R) : Prop :=
  match p with
  | GReal _ | CReal _ => u = v
  | GInt t _ => exists z, u = IZR z /\ cut (lowest t) (highest t) v z
  | CByte _ => exists z, u = IZR z /\ cut 0 255 v z
  end.
Lemma fin_int_r_cut lo hi v : cut lo hi v (fin_int_r lo hi v) \/ (hi < lo)%Z.
Proof.
  unfold cut, fin_int_r, rltb; destruct (Z_lt_le_dec hi lo) as [|L]; [auto|]; left; apply IZR_le in L.
  destruct (Rlt_dec (IZR hi) v); [auto|]; destruct (Rlt_dec v (IZR lo)); [auto|]; right; right; split; [lra|].
  destruct (Rlt_dec v 0) as [N|N]; [right | left]; (split; [lra|]); [apply rtrunc_neg | apply rtrunc_nonneg]; lra.
Qed.
Lemma cut_exact lo hi z z' : (lo <= z <= hi)%Z -> cut lo hi (IZR z) z' -> z' = z.
Proof.
  intros (L & H) C; apply IZR_le in L, H; destruct C as [(C & _)|[(C & _)|(_ & [(_ & A & B)|(_ & A & B)])]]; try lra.
  - assert (z' <= z)%Z by (apply le_IZR; lra); assert (z < z' + 1)%Z by (apply lt_IZR; rewrite plus_IZR; lra); lia.
  - assert (z <= z')%Z by (apply le_IZR; lra); assert (z' - 1 < z)%Z by (apply lt_IZR; rewrite minus_IZR; lra); lia.
Qed.
Lemma Repr_map {A B} (F : A -> B) im w h f : Repr im w h f -> Repr (mkImage (dims im) (map F (pix im))) w h (fun x y => F (f x y)).
Proof.
  intros (D & L & H); repeat split; cbn [dims pix]; auto; [rewrite map_length; auto|].
  intros x y X Y; rewrite nth_error_map, (H x y X Y); reflexivity.
Qed.
Lemma mapM_total {A B} (F : A -> res B) (G : A -> B) l : (forall a, F a = Ok (G a)) -> mapM F l = Ok (map G l).
Proof. intros H; induction l as [|a l IH]; [reflexivity|]; cbn [mapM map]; rewrite H; cbn [bind]; rewrite IH; reflexivity. Qed.
Lemma lanczos_fin_ok t v : (2 <= bits t <= 53)%Z -> lanczos_fin t v = Ok (fin_int_r (lowest t) (highest t) v).
Proof.
  intros B; unfold lanczos_fin, is_bool, max_double; replace (bits t =? 1)%Z with false by lia; replace (bits t <=? 53)%Z with true by lia; cbn [andb].
  pose proof (type_zero t ltac:(lia)) as Z0; pose proof (fin_int_r_range (lowest t) (highest t) v Z0) as R0; unfold fin_int_r, rltb in *.
  assert (LH : (IZR (lowest t) <= IZR (highest t))%R) by (apply IZR_le; lia).
  destruct (Rlt_dec (IZR (highest t)) v); destruct (Rlt_dec v (IZR (lowest t))); cbv zeta; try lra;
    match goal with |- (if ?b then _ else _) = _ => replace b with true by lia end; reflexivity.
Qed.
Lemma lanczos_ints_ok s t im w h f w' h' a g : (2 <= bits t <= 53)%Z -> Repr im w h f ->
  (forall im, Repr im w h (fun x y => IZR (f x y)) -> exists o, lanczos_int s im w' h' a = Ok o /\ Repr o w' h' g) ->
  exists o, lanczos_ints s t im w' h' a = Ok o /\ Repr o w' h' (fun x y => fin_int_r (lowest t) (highest t) (g x y)).
Proof.
  intros B Rf H; unfold lanczos_ints; destruct (H _ (Repr_map IZR im w h f Rf)) as (o & -> & Ro); cbn [bind].
  rewrite (mapM_total _ (fin_int_r (lowest t) (highest t))) by (intros; apply lanczos_fin_ok; auto); cbn [bind].
  eexists; split; [reflexivity|]; apply Repr_map; exact Ro.
Qed.
(** the command on any picture, from what happens to one plane of doubles *)
Lemma pic_lanczos_ok pl s p w h f w' h' a (T : (nat -> nat -> R) -> nat -> nat -> R) : sched1_ok pl -> 0 < w -> 0 < h -> 0 < w' -> 0 < h' -> exact_type p -> depicts p w h f ->
  (forall c c', (forall x y, x < w -> y < h -> c x y = c' x y) -> forall x y, x < w' -> y < h' -> T c x y = T c' x y) ->
  (forall im c, Repr im w h c -> exists o, lanczos_int s im w' h' (s32 (Z.of_nat a)) = Ok o /\ Repr o w' h' (T c)) ->
  exists q g, pic_lanczos pl s w' h' a p = Ok q /\ same_kind p q /\ depicts q w' h' g /\
    forall x y k, x < w' -> y < h' -> k < channels p -> held_as p (T (fun a b => nth k (f a b) 0%R) x y) (nth k (g x y) 0%R).
Proof.
  intros Hp Pw Ph Pw' Ph' ET D HT H; unfold pic_lanczos; cbv zeta.
  destruct p as [im|t im|im|im]; cbn [depicts] in D; destruct D as (g & Rg & Hg); cbn [exact_type channels same_kind held_as] in *.
  - destruct (H im g Rg) as (o & -> & Ro); cbn [bind]; exists (GReal o), (fun x y => [T g x y]); split; [reflexivity|]; split; [exact I|].
    split; [exists (T g); auto|]; intros x y k X Y K; replace k with 0 by lia; cbn [nth]; apply HT; auto; intros u v U W; rewrite Hg by auto; reflexivity.
  - destruct (lanczos_ints_ok s t im w h g w' h' (s32 (Z.of_nat a)) (T (fun x y => IZR (g x y)))) as (o & -> & Ro); auto.
    pose proof (type_zero t ltac:(lia)) as Z0.
    cbn [bind]; exists (GInt t o), (fun x y => [IZR (fin_int_r (lowest t) (highest t) (T (fun x y => IZR (g x y)) x y))]); split; [reflexivity|]; split; [reflexivity|]; split.
    { eexists; split; [exact Ro|]; intros x y _ _; split; [reflexivity | apply fin_int_r_range; exact Z0]. }
    intros x y k X Y K; replace k with 0 by lia; cbn [nth]; eexists; split; [reflexivity|].
    rewrite (HT (fun a b => nth 0 (f a b) 0%R) (fun x y => IZR (g x y))) by (auto; intros u v U W; rewrite (proj1 (Hg u v U W)); reflexivity).
    match goal with |- cut ?l ?h ?v _ => destruct (fin_int_r_cut l h v) as [C|C]; [exact C | lia] end.
  - destruct (each3 pl 0%R [0%R; 0%R; 0%R] (fun q => lanczos_int s q w' h' (s32 (Z.of_nat a))) im w h g w' h' (fun k => T (fun x y => nth k (g x y) 0%R))) as (o & -> & Ro); try assumption.
    { intros; apply Hg; auto. }
    { intros k p _ Rp; apply (H p _ Rp). }
    set (K := fun k => T (fun x y => nth k (g x y) 0%R)) in *; cbn [bind]; exists (CReal o), (fun x y => [K 0 x y; K 1 x y; K 2 x y]); split; [reflexivity|]; split; [exact I|]; split; [eexists; split; [exact Ro|]; auto|].
    intros x y k X Y Hk; unfold K; cbv beta.
    rewrite (HT (fun a b => nth k (f a b) 0%R) (fun a b => nth k (g a b) 0%R)) by (auto; intros u v U W; rewrite (proj1 (Hg u v U W)); reflexivity).
    destruct k as [|[|[|k]]]; try lia; reflexivity.
  - destruct (each3 pl 0%Z [0; 0; 0]%Z (fun q => lanczos_ints s (mkIty 8 false) q w' h' (s32 (Z.of_nat a))) im w h g w' h'
      (fun k x y => fin_int_r 0 255 (T (fun x y => IZR (nth k (g x y) 0%Z)) x y))) as (o & -> & Ro); try assumption.
    { intros; apply Hg; auto. }
    { intros k p _ Rp; apply (lanczos_ints_ok s (mkIty 8 false) p w h _ w' h' _ (T (fun x y => IZR (nth k (g x y) 0%Z))) ltac:(cbn; lia) Rp); intros im' R'; apply (H im' _ R'). }
    set (K := fun k x y => fin_int_r 0 255 (T (fun x y => IZR (nth k (g x y) 0%Z)) x y)) in *; cbn [bind]; exists (CByte o), (fun x y => map IZR [K 0 x y; K 1 x y; K 2 x y]); split; [reflexivity|]; split; [exact I|]; split.
    { eexists; split; [exact Ro|]; intros x y _ _; split; [reflexivity|]; split; [reflexivity|]; repeat constructor; apply fin_int_r_range; lia. }
    intros x y k X Y Hk; unfold K; cbv beta.
    rewrite (HT (fun a b => nth k (f a b) 0%R) (fun a b => IZR (nth k (g a b) 0%Z)))
      by (auto; intros u v U W; rewrite (proj1 (Hg u v U W)); change 0%R with (IZR 0); rewrite map_nth; reflexivity).
    destruct k as [|[|[|k]]]; try lia; cbn [map nth]; eexists; (split; [reflexivity|]);
      match goal with |- cut ?l ?h ?v _ => destruct (fin_int_r_cut l h v) as [C|C]; [exact C | lia] end.
Qed.
Lemma interpolated_ext w h w' h' a c c' : 0 < w -> 0 < h -> (forall x y, x < w -> y < h -> c x y = c' x y) ->
  forall x y, interpolated w h w' h' a c x y = interpolated w h w' h' a c' x y.
Proof.
  intros Pw Ph E x y; unfold interpolated; cbv zeta; apply (f_equal2 Rdiv); [|reflexivity].
  rewrite !window_near; apply near_ext; intros j; rewrite !window_near; apply near_ext; intros i; rewrite E; [reflexivity| |];
    rewrite nearest_clamp by auto; unfold clampz; lia.
Qed.
Lemma s32_small a : (Z.of_nat a mod 2 ^ 32 < 2 ^ 31)%Z -> s32 (Z.of_nat a) = (Z.of_nat a mod 2 ^ 32)%Z.
Proof. intros H; unfold s32, u32; cbv zeta; replace (Z.of_nat a mod 2 ^ 32 <? 2 ^ 31)%Z with true by lia; reflexivity. Qed.
Lemma s32_large a : (2 ^ 31 <= Z.of_nat a mod 2 ^ 32)%Z -> s32 (Z.of_nat a) = (Z.of_nat a mod 2 ^ 32 - 2 ^ 32)%Z.
Proof. intros H; unfold s32, u32; cbv zeta; replace (Z.of_nat a mod 2 ^ 32 <? 2 ^ 31)%Z with false by lia; reflexivity. Qed.
Lemma order_ok sch p : (forall q, sched1_ok (sch q)) -> sched1_ok (order (policy_of sch p)).
Proof. intros H; unfold policy_of, order; destruct (is_policy p); [apply H | apply sched1_seq0]. Qed.
(** the last argument, if it is there *)
Definition radius_is (rest : list str) (a : nat) : Prop := match rest with [] => a = 3 | t :: _ => parse_size t = Ok a end.
Lemma lanczos_step {V F} load_file save_file as_pic (of_pic : rpic -> any V) sch s args i out wa ha rest (st : state V F) p w' h' a :
  args_filter args = i :: out :: wa :: ha :: rest -> parse_size wa = Ok w' -> parse_size ha = Ok h' -> radius_is rest a -> stands load_file as_pic st i p ->
  lanczos_command V F load_file save_file as_pic of_pic sch s args st =
    match pic_lanczos s (order (policy_of sch (extract_policy args))) w' h' a p with Ok o => Ok (save_arg V F save_file st out (of_pic o)) | Throw _ => Ok st | UB => UB end.
Proof.
  intros Fa Pw Ph Pa St; unfold lanczos_command.
  rewrite (pic_step load_file save_file as_pic of_pic 2 _ args st i out (wa :: ha :: rest) p Fa ltac:(cbn; lia) St); cbn [bind nth nth_error]; rewrite Pw; cbn [bind]; rewrite Ph; cbn [bind].
  destruct rest as [|t rest]; cbn [nth_error radius_is] in *; [subst a; reflexivity|]; rewrite Pa; reflexivity.
Qed.

(** lanczos_resample with any policy: each channel is interpolated with the radius modulo 2^32, 3 if none is given *)
Theorem C160_resample {V F} load_file save_file as_pic (of_pic : rpic -> any V) sch s args i out wa ha rest (st : state V F) p w h f w' h' a r :
  sched1_ok s -> (forall q, sched1_ok (sch q)) -> args_filter args = i :: out :: wa :: ha :: rest ->
  parse_size wa = Ok w' -> parse_size ha = Ok h' -> radius_is rest a -> stands load_file as_pic st i p ->
  0 < w -> 0 < h -> exact_type p -> depicts p w h f -> (0 < Z.of_nat w' <= 2 ^ 50)%Z -> (0 < Z.of_nat h' <= 2 ^ 50)%Z ->
  (Z.of_nat r = Z.of_nat a mod 2 ^ 32)%Z -> 0 < r -> (Z.of_nat (w + r) <= 2 ^ 31)%Z -> (Z.of_nat (h + r) <= 2 ^ 31)%Z ->
  exists q g, lanczos_command V F load_file save_file as_pic of_pic sch s args st = Ok (save_arg V F save_file st out (of_pic q)) /\
    same_kind p q /\ depicts q w' h' g /\
    forall x y k, x < w' -> y < h' -> k < channels p -> held_as p (interpolated w h w' h' r (fun a b => nth k (f a b) 0%R) x y) (nth k (g x y) 0%R).
Proof.
  intros Hs Hp Fa Ew Eh Ea St Pw Ph ET D Bw Bh Er Pr Bwr Bhr.
  destruct (pic_lanczos_ok s (order (policy_of sch (extract_policy args))) p w h f w' h' a (interpolated w h w' h' r)) as (q & g & E & K & Dq & Hq); auto; try lia.
  - intros c c' Ec x y _ _; apply interpolated_ext; auto.
  - intros im c Rc; rewrite s32_small by lia; unfold lanczos_int; replace (0 <=? Z.of_nat a mod 2 ^ 32)%Z with true by lia.
    rewrite <- Er, Nat2Z.id; apply C99_value; auto; try lia; apply order_ok; auto.
  - exists q, g; rewrite (lanczos_step load_file save_file as_pic of_pic sch s args i out wa ha rest st p w' h' a Fa Ew Eh Ea St), E; auto.
Qed.
Print Assumptions C160_resample.

(** to the extents of the picture: the picture itself *)
Lemma interpolated_same w h r c x y : 0 < w -> 0 < h -> 0 < r -> (Z.of_nat (w + r) <= 2 ^ 31)%Z -> (Z.of_nat (h + r) <= 2 ^ 31)%Z -> x < w -> y < h ->
  interpolated w h w h r c x y = c x y.
Proof.
  intros Pw Ph Pr Bw Bh X Y.
  destruct (C99_value seq0 (img w h c) w h c w h r sched1_seq0 (img_Repr w h c) Pw Ph Pr Bw Bh ltac:(lia) ltac:(lia)) as (o & E & Ro).
  destruct (C99_identity seq0 (img w h c) w h c r sched1_seq0 (img_Repr w h c) Pw Ph Pr Bw Bh) as (o' & E' & Ro').
  rewrite E in E'; apply Ok_inj in E' as <-; destruct Ro as (_ & _ & R1); destruct Ro' as (_ & _ & R2).
  specialize (R1 x y X Y); specialize (R2 x y X Y); rewrite R2 in R1; injection R1 as R1; symmetry; exact R1.
Qed.
Lemma depicts_held p q w h f g : same_kind p q -> depicts p w h f -> depicts q w h g ->
  (forall x y k, x < w -> y < h -> k < channels p -> held_as p (nth k (f x y) 0%R) (nth k (g x y) 0%R)) -> forall x y, x < w -> y < h -> g x y = f x y.
Proof.
  intros K Dp Dq H x y X Y.
  assert (L1 : length (g x y) = channels p) by (rewrite (depicts_length q w h g x y Dq X Y); destruct p, q; cbn in K |- *; try contradiction; reflexivity).
  assert (L2 : length (f x y) = channels p) by (eapply depicts_length; eauto).
  apply (nth_ext _ _ 0%R 0%R); [congruence|]; intros k Hk; rewrite L1 in Hk; specialize (H x y k X Y Hk).
  destruct p as [im|t im|im|im]; cbn [depicts held_as channels] in *; destruct Dp as (e & _ & He); [exact H| |exact H|].
  - destruct (He x y X Y) as (Ef & B); destruct H as (z & -> & C); rewrite Ef in *; replace k with 0 in * by lia; cbn [nth] in *; f_equal; eapply cut_exact; eauto.
  - destruct (He x y X Y) as (Ef & L3 & B); destruct H as (z & -> & C); rewrite Ef in *; change 0%R with (IZR 0) in *; rewrite map_nth in *; f_equal.
    eapply cut_exact; [|exact C]; apply (proj1 (Forall_forall _ _) B), nth_In; lia.
Qed.
Theorem C160_same_size {V F} load_file save_file as_pic (of_pic : rpic -> any V) sch s args i out wa ha rest (st : state V F) p w h f a r :
  sched1_ok s -> (forall q, sched1_ok (sch q)) -> args_filter args = i :: out :: wa :: ha :: rest ->
  parse_size wa = Ok w -> parse_size ha = Ok h -> radius_is rest a -> stands load_file as_pic st i p ->
  0 < w -> 0 < h -> exact_type p -> depicts p w h f ->
  (Z.of_nat r = Z.of_nat a mod 2 ^ 32)%Z -> 0 < r -> (Z.of_nat (w + r) <= 2 ^ 31)%Z -> (Z.of_nat (h + r) <= 2 ^ 31)%Z ->
  exists q, lanczos_command V F load_file save_file as_pic of_pic sch s args st = Ok (save_arg V F save_file st out (of_pic q)) /\
    same_kind p q /\ depicts q w h f.
Proof.
  intros Hs Hp Fa Ew Eh Ea St Pw Ph ET D Er Pr Bwr Bhr.
  destruct (C160_resample load_file save_file as_pic of_pic sch s args i out wa ha rest st p w h f w h a r) as (q & g & E & K & Dq & Hq); auto; try lia.
  exists q; split; [exact E|]; split; [exact K|]; eapply depicts_ext; [exact Dq|]; apply (depicts_held p q w h f g K D Dq).
  intros x y k X Y Hk; specialize (Hq x y k X Y Hk); rewrite interpolated_same in Hq by auto; exact Hq.
Qed.
Print Assumptions C160_same_size.

(** a radius that is a multiple of 2^32, or from 2^31 on to the next one: a black picture *)
Lemma for_list_same {A S} (l : list A) (body : A -> S -> res S) st : (forall a, In a l -> body a st = Ok st) -> for_list l body st = Ok st.
Proof. induction l as [|a l IH]; intros H; [reflexivity|]; cbn [for_list]; rewrite H by (left; reflexivity); cbn [bind]; apply IH; intros b Hb; apply H; right; exact Hb. Qed.
Lemma zeros_Repr w h : Repr (image_sizes 0%R [w; h]) w h (fun _ _ => 0%R).
Proof.
  unfold image_sizes; repeat split; cbn [dims pix]; [rewrite repeat_length; apply prodn2|].
  intros x y X Y; apply nth_error_repeat; rewrite prodn2; nia.
Qed.
Lemma lanczos_int_black s im w h c w' h' a : sched1_ok s -> Repr im w h c -> 0 < w -> 0 < h -> (a <= 0)%Z ->
  (Z.of_nat w - a < 2 ^ 31)%Z -> (Z.of_nat h - a < 2 ^ 31)%Z -> exists o, lanczos_int s im w' h' a = Ok o /\ Repr o w' h' (fun _ _ => 0%R).
Proof.
  intros Hs Rc Pw Ph Na Bw Bh; exists (image_sizes 0%R [w'; h']); split; [|apply zeros_Repr].
  assert (I : forall z, (- 2 ^ 31 <= z < 2 ^ 31)%Z -> int_ok z = Ok z) by (intros z Hz; unfold int_ok; replace ((- 2 ^ 31 <=? z)%Z && (z <? 2 ^ 31)%Z) with true by lia; auto).
  unfold lanczos_int; destruct (Z.leb_spec 0 a) as [L|L].
  - replace (Z.to_nat a) with 0 by lia; unfold lanczos_resample.
    rewrite (check2d_Repr _ _ _ _ Rc), (get_width_Repr _ _ _ _ Rc), (get_height_Repr _ _ _ _ Rc); cbn [bind]; apply for_list_same; intros idx HI; apply (sched1_in s) in HI; auto.
    assert (X : idx mod w' < w') by (apply Nat.mod_upper_bound; nia); assert (Y : idx / w' < h') by (apply Nat.div_lt_upper_bound; nia).
    change ((INR (idx mod w') + / 2) * (INR w / INR w') - / 2)%R with (source w w' (idx mod w')).
    change ((INR (idx / w') + / 2) * (INR h / INR h') - / 2)%R with (source h h' (idx / w')).
    pose proof (source_floor w w' _ Pw X) as FX; pose proof (source_floor h h' _ Ph Y) as FY; unfold lanczos_sums.
    rewrite !I by lia; cbn [bind]; rewrite !I by lia; cbn [bind].
    assert (N : forall z, zrange (z - Z.of_nat 0 + 1) (z + Z.of_nat 0) = []) by (intros z; unfold zrange; replace (Z.to_nat _) with 0 by lia; reflexivity).
    rewrite !N; cbn [for_list bind]; destruct (Req_EM_T 0 0) as [|C]; [reflexivity | exfalso; apply C; reflexivity].
  - rewrite (check2d_Repr _ _ _ _ Rc), (get_width_Repr _ _ _ _ Rc), (get_height_Repr _ _ _ _ Rc); cbn [bind]; apply for_list_same; intros idx HI; apply (sched1_in s) in HI; auto.
    assert (X : idx mod w' < w') by (apply Nat.mod_upper_bound; nia); assert (Y : idx / w' < h') by (apply Nat.div_lt_upper_bound; nia).
    change ((INR (idx mod w') + / 2) * (INR w / INR w') - / 2)%R with (source w w' (idx mod w')).
    change ((INR (idx / w') + / 2) * (INR h / INR h') - / 2)%R with (source h h' (idx / w')).
    pose proof (source_floor w w' _ Pw X) as FX; pose proof (source_floor h h' _ Ph Y) as FY.
    rewrite !I by lia; cbn [bind]; repeat (rewrite I by lia; cbn [bind]); reflexivity.
Qed.
Theorem C160_black {V F} load_file save_file as_pic (of_pic : rpic -> any V) sch s args i out wa ha rest (st : state V F) p w h f w' h' a :
  sched1_ok s -> (forall q, sched1_ok (sch q)) -> args_filter args = i :: out :: wa :: ha :: rest ->
  parse_size wa = Ok w' -> parse_size ha = Ok h' -> radius_is rest a -> stands load_file as_pic st i p ->
  0 < w -> 0 < h -> exact_type p -> depicts p w h f -> 0 < w' -> 0 < h' ->
  (Z.of_nat a mod 2 ^ 32 = 0 /\ Z.of_nat (Nat.max w h) < 2 ^ 31 \/ 2 ^ 31 + Z.of_nat (Nat.max w h) < Z.of_nat a mod 2 ^ 32)%Z ->
  exists q, lanczos_command V F load_file save_file as_pic of_pic sch s args st = Ok (save_arg V F save_file st out (of_pic q)) /\
    same_kind p q /\ depicts q w' h' (fun _ _ => repeat 0%R (channels p)).
Proof.
  intros Hs Hp Fa Ew Eh Ea St Pw Ph ET D Pw' Ph' B.
  destruct (pic_lanczos_ok s (order (policy_of sch (extract_policy args))) p w h f w' h' a (fun _ _ _ => 0%R)) as (q & g & E & K & Dq & Hq); auto.
  - intros im c Rc; destruct B as [(B & C)|B].
    + rewrite s32_small by lia; rewrite B; eapply lanczos_int_black; eauto; try lia; apply order_ok; auto.
    + rewrite s32_large by lia; eapply lanczos_int_black; eauto; try lia; apply order_ok; auto.
  - exists q; rewrite (lanczos_step load_file save_file as_pic of_pic sch s args i out wa ha rest st p w' h' a Fa Ew Eh Ea St), E.
    split; [reflexivity|]; split; [exact K|]; eapply depicts_ext; [exact Dq|]; intros x y X Y.
    assert (L1 : length (g x y) = channels p) by (rewrite (depicts_length q w' h' g x y Dq X Y); destruct p, q; cbn in K |- *; try contradiction; reflexivity).
    apply (nth_ext _ _ 0%R 0%R); [rewrite repeat_length; exact L1|]; intros k Hk; rewrite L1 in Hk; specialize (Hq x y k X Y Hk); rewrite nth_repeat.
    destruct p as [im|t im|im|im]; cbn [held_as exact_type] in *; auto; destruct Hq as (z & -> & C); change 0%R with (IZR 0); f_equal; eapply cut_exact; try exact C; [apply type_zero|]; lia.
Qed.
Print Assumptions C160_black.

Theorem C160_refused {V F} load_file save_file as_pic (of_pic : rpic -> any V) sch s args (st : state V F) :
  length (args_filter args) < 4 \/
  (exists i out wa ha rest, args_filter args = i :: out :: wa :: ha :: rest /\
     ((exists e, parse_size wa = Throw e) \/ (exists n e, parse_size wa = Ok n /\ parse_size ha = Throw e) \/
      exists n m t more e, parse_size wa = Ok n /\ parse_size ha = Ok m /\ rest = t :: more /\ parse_size t = Throw e)) ->
  lanczos_command V F load_file save_file as_pic of_pic sch s args st = Ok st.
Proof.
  intros [L|(i & out & wa & ha & rest & Fa & H)]; [apply pic_few; exact L|].
  eapply pic_refused; [exact Fa|]; right; cbn [nth nth_error]; destruct H as [(e & ->)|[(n & e & -> & E)|(n & m & t & more & e & -> & E & -> & Et)]]; exists e; cbn [bind];
    try rewrite E; cbn [bind nth_error]; try rewrite Et; reflexivity.
Qed.
Print Assumptions C160_refused.

(** ** C161  normalize and gaussian_figure_2d *)
(** normalize stores the picture stretched to the values from 0 to 1; a second time it changes nothing; brightness and contrast of
    the input do not matter *)
Theorem C161_normalize {V F} load_file save_file as_pic (of_pic : rpic -> any V) args i out rest (st : state V F) im ds f :
  args_filter args = i :: out :: rest -> stands load_file as_pic st i (GReal im) -> ReprN im ds f -> 0 < prodn ds ->
  (exists a b, in_range ds a /\ in_range ds b /\ f a <> f b) ->
  let run := normalize_command V F load_file save_file as_pic of_pic in
  exists lo hi o, run args st = Ok (save_arg V F save_file st out (of_pic (GReal o))) /\
    (lo < hi)%R /\ (exists a, in_range ds a /\ f a = lo) /\ (exists a, in_range ds a /\ f a = hi) /\ (forall a, in_range ds a -> lo <= f a <= hi)%R /\
    ReprN o ds (fun a => ((f a - lo) / (hi - lo))%R) /\
    (forall args' i' out' rest' st', args_filter args' = i' :: out' :: rest' -> stands load_file as_pic st' i' (GReal o) ->
       run args' st' = Ok (save_arg V F save_file st' out' (of_pic (GReal o)))) /\
    (forall args' i' out' rest' st' im' c d, args_filter args' = i' :: out' :: rest' -> stands load_file as_pic st' i' (GReal im') ->
       (0 < c)%R -> ReprN im' ds (fun a => c * f a + d)%R -> run args' st' = Ok (save_arg V F save_file st' out' (of_pic (GReal o)))).
Proof.
  intros Fa St Rf P NC run; destruct (C116_normalize im ds f Rf P NC) as (lo & hi & o & L & A1 & A2 & B & E & Ro).
  destruct (C116_unit im ds f o Rf P NC E) as (_ & _ & _ & _ & _ & _ & Idem & Aff).
  assert (S : forall args i out rest st im o, args_filter args = i :: out :: rest -> stands load_file as_pic st i (GReal im) -> normalize rlt Rminus Rdiv im = Ok o ->
    run args st = Ok (save_arg V F save_file st out (of_pic (GReal o)))).
  { clear; intros args i out rest st im o Fa St E; unfold run, normalize_command.
    rewrite (pic_step load_file save_file as_pic of_pic 0 _ args st i out rest (GReal im) Fa ltac:(lia) St); cbn [bind pic_normalize].
    change less with rlt; rewrite E; reflexivity. }
  exists lo, hi, o; split; [eapply S; eauto|]; split; [exact L|]; split; [exact A1|]; split; [exact A2|]; split; [exact B|]; split; [exact Ro|]; split.
  - intros; eapply S; eauto.
  - intros; eapply S; eauto.
Qed.
Print Assumptions C161_normalize.
Theorem C161_normalize_refused {V F} load_file save_file as_pic (of_pic : rpic -> any V) args i out rest (st : state V F) p :
  args_filter args = i :: out :: rest -> stands load_file as_pic st i p -> (forall im, p <> GReal im) ->
  normalize_command V F load_file save_file as_pic of_pic args st = Ok st.
Proof.
  intros Fa St N; unfold normalize_command; rewrite (pic_step load_file save_file as_pic of_pic 0 _ args st i out rest p Fa ltac:(lia) St); cbn [bind].
  destruct p as [im|t im|im|im]; cbn [pic_normalize]; [destruct (N im eq_refl) | reflexivity..].
Qed.
Print Assumptions C161_normalize_refused.

(** gaussian_figure_2d: the bell around the centre, with the same width in both directions; the centre may be outside *)
Theorem C161_figure {V F} save_file (of_pic : rpic -> any V) parse_double out wa ha xa ya sa rest w h cx cy sigma (st : state V F) :
  parse_size wa = Ok w -> parse_size ha = Ok h -> parse_size xa = Ok cx -> parse_size ya = Ok cy -> parse_double sa = Ok sigma -> 0 < w -> 0 < h -> sigma <> 0%R ->
  exists o, figure_command V F save_file of_pic parse_double (out :: wa :: ha :: xa :: ya :: sa :: rest) st = Ok (save_arg V F save_file st out (of_pic (GReal o))) /\
    Repr o w h (fun x y => exp (- ((INR x - INR cx) ^ 2 + (INR y - INR cy) ^ 2) / (2 * sigma ^ 2)))%R.
Proof.
  intros Ew Eh Ex Ey Es Pw Ph N; destruct (C96_figure w h cx cy sigma sigma Pw Ph N N) as (o & E & Ro); exists o.
  unfold figure_command; rewrite Ew, Eh, Ex, Ey, Es; cbn [bind]; rewrite E; split; [reflexivity|].
  eapply Repr_ext; [exact Ro|]; intros x y _ _; cbv beta; unfold gauss; rewrite <- exp_plus; f_equal; replace (sigma ^ 2)%R with (sigma * sigma)%R by ring; unfold Rdiv; ring.
Qed.
Print Assumptions C161_figure.
Theorem C161_figure_refused {V F} save_file (of_pic : rpic -> any V) parse_double args (st : state V F) :
  length args < 6 \/
  (exists out wa ha xa ya sa rest, args = out :: wa :: ha :: xa :: ya :: sa :: rest /\
    ((exists e, parse_size wa = Throw e) \/
     (exists a e, parse_size wa = Ok a /\ parse_size ha = Throw e) \/
     (exists a b e, parse_size wa = Ok a /\ parse_size ha = Ok b /\ parse_size xa = Throw e) \/
     (exists a b c e, parse_size wa = Ok a /\ parse_size ha = Ok b /\ parse_size xa = Ok c /\ parse_size ya = Throw e) \/
     (exists a b c d e, parse_size wa = Ok a /\ parse_size ha = Ok b /\ parse_size xa = Ok c /\ parse_size ya = Ok d /\ parse_double sa = Throw e))) ->
  figure_command V F save_file of_pic parse_double args st = Ok st.
Proof.
  intros [L|(out & wa & ha & xa & ya & sa & rest & -> & H)].
  - unfold figure_command; destruct args as [|a1 [|a2 [|a3 [|a4 [|a5 [|a6 args]]]]]]; try reflexivity; cbn [length] in L; lia.
  - unfold figure_command; destruct H as [(e & ->)|[(a & e & -> & ->)|[(a & b & e & -> & -> & ->)|[(a & b & c & e & -> & -> & -> & ->)|(a & b & c & d & e & -> & -> & -> & -> & ->)]]]]; reflexivity.
Qed.
Print Assumptions C161_figure_refused.

(** ** concrete sessions *)
Definition stage (l : list (str * rpic)) : state rpic unit := mkState rpic unit (map (fun p => (fst p, (0, snd p))) l) tt.
Definition none_load (_ : unit) (_ : str) : option (any rpic) := None.
Definition none_save (_ : unit) (_ : str) (_ : any rpic) : option unit := None.
Definition see (v : any rpic) : option rpic := Some (snd v).
Definition put (p : rpic) : any rpic := (0, p).
Definition tiny : rpic := GInt (mkIty 8 false) (mkImage [2; 1] [10; 20]%Z).
Definition shown (x _ : nat) : list R := [IZR (Z.of_nat (10 * (x + 1)))].
Lemma tiny_depicts : depicts tiny 2 1 shown.
Proof.
  exists (fun x _ => Z.of_nat (10 * (x + 1))); split.
  - repeat split; intros [|[|x]] [|y] X Y; try lia; reflexivity.
  - intros [|[|x]] y X Y; try lia; cbn; split; try lia; reflexivity.
Qed.
Definition word_angle (s : str) : res R := if eqs s "0"%string then Ok 0%R else Throw InvalidArgument.

Example C158_case : exists st1 st2 o,
  dct2_command rpic unit none_load none_save see put seq0 grid [lit "par"; lit "$a"; lit "$b"] (stage [(lit "a", tiny)]) = Ok st1 /\
  idct2_command rpic unit none_load none_save see put seq0 grid [lit "$b"; lit "$c"] st1 = Ok st2 /\
  stands none_load see st2 (lit "$c") o /\ depicts o 2 1 shown /\ stands none_load see st2 (lit "$a") tiny.
Proof.
  assert (St : stands none_load see (stage [(lit "a", tiny)]) (lit "$a") tiny) by (exists (0, tiny); split; reflexivity).
  destruct (C158_round_trip none_load none_save see put seq0 grid seq0 grid [lit "par"; lit "$a"; lit "$b"] [lit "$b"; lit "$c"] (lit "$a") (lit "$b") (lit "$c") [] []
    (stage [(lit "a", tiny)]) tiny 2 1 shown sched1_seq0 sched_ok_grid sched1_seq0 sched_ok_grid ltac:(reflexivity) eq_refl eq_refl eq_refl eq_refl St ltac:(lia) ltac:(lia) tiny_depicts)
    as ((st1 & st2 & E1 & E2 & o & So & _ & _ & Do & Keep) & _).
  exists st1, st2, o; split; [exact E1|]; split; [exact E2|]; split; [exact So|]; split; [exact Do|].
  destruct St as (v & Lv & Av); exists v; split; [rewrite Keep by (cbv; discriminate); exact Lv | exact Av].
Qed.
Example C159_case : exists q,
  rotate_command rpic unit none_load none_save see put word_angle seq0 [lit "$a"; lit "$b"; lit "0"] (stage [(lit "a", tiny)])
    = Ok (save_arg rpic unit none_save (stage [(lit "a", tiny)]) (lit "$b") (put q)) /\ same_kind tiny q /\ depicts q 2 1 shown /\
  rotate_command rpic unit none_load none_save see put word_angle seq0 [lit "$a"; lit "$b"; lit "left"] (stage [(lit "a", tiny)]) = Ok (stage [(lit "a", tiny)]).
Proof.
  destruct (C159_unturned none_load none_save see put word_angle seq0 [lit "$a"; lit "$b"; lit "0"] (lit "$a") (lit "$b") (lit "0") [] (stage [(lit "a", tiny)]) tiny 2 1 shown 0
    sched1_seq0 eq_refl) with (7 := tiny_depicts) as (q & E & K & D); try lia.
  - replace (2 * PI * IZR 0)%R with 0%R by (cbn; ring); reflexivity.
  - exists (0, tiny); split; reflexivity.
  - cbn; lia.
  - exists q; repeat split; auto; apply C159_refused; right; exists (lit "$a"), (lit "$b"), (lit "left"), [], InvalidArgument; split; reflexivity.
Qed.
Example C160_case : exists q q',
  lanczos_command rpic unit none_load none_save see put (fun _ => seq0) seq0 [lit "unseq"; lit "$a"; lit "$b"; lit "2"; lit "1"] (stage [(lit "a", tiny)])
    = Ok (save_arg rpic unit none_save (stage [(lit "a", tiny)]) (lit "$b") (put q)) /\ depicts q 2 1 shown /\
  lanczos_command rpic unit none_load none_save see put (fun _ => seq0) seq0 [lit "$a"; lit "$b"; lit "5"; lit "4"; lit "0"] (stage [(lit "a", tiny)])
    = Ok (save_arg rpic unit none_save (stage [(lit "a", tiny)]) (lit "$b") (put q')) /\ depicts q' 5 4 (fun _ _ => [0%R]).
Proof.
  assert (St : stands none_load see (stage [(lit "a", tiny)]) (lit "$a") tiny) by (exists (0, tiny); split; reflexivity).
  destruct (C160_same_size none_load none_save see put (fun _ => seq0) seq0 [lit "unseq"; lit "$a"; lit "$b"; lit "2"; lit "1"] (lit "$a") (lit "$b") (lit "2") (lit "1") []
    (stage [(lit "a", tiny)]) tiny 2 1 shown 3 3 sched1_seq0 (fun _ => sched1_seq0) eq_refl) with (8 := tiny_depicts) as (q & E & _ & D); try lia; try reflexivity; try exact St; [cbn; lia|].
  destruct (C160_black none_load none_save see put (fun _ => seq0) seq0 [lit "$a"; lit "$b"; lit "5"; lit "4"; lit "0"] (lit "$a") (lit "$b") (lit "5") (lit "4") [lit "0"]
    (stage [(lit "a", tiny)]) tiny 2 1 shown 5 4 0 sched1_seq0 (fun _ => sched1_seq0) eq_refl) with (8 := tiny_depicts) as (q' & E' & _ & D'); try lia; try reflexivity; try exact St; [cbn; lia|].
  exists q, q'; auto.
Qed.
Example C161_case : exists lo hi o,
  normalize_command rpic unit none_load none_save see put [lit "$g"; lit "$n"] (stage [(lit "g", GReal (mkImage [2] [3; 7]%R))])
    = Ok (save_arg rpic unit none_save (stage [(lit "g", GReal (mkImage [2] [3; 7]%R))]) (lit "$n") (put (GReal o))) /\ (lo < hi)%R /\
  ReprN o [2] (fun a => ((match a with [0] => 3 | _ => 7 end - lo) / (hi - lo))%R) /\
  normalize_command rpic unit none_load none_save see put [lit "$a"; lit "$b"] (stage [(lit "a", tiny)]) = Ok (stage [(lit "a", tiny)]).
Proof.
  destruct (C161_normalize none_load none_save see put [lit "$g"; lit "$n"] (lit "$g") (lit "$n") [] (stage [(lit "g", GReal (mkImage [2] [3; 7]%R))]) (mkImage [2] [3; 7]%R) [2]
    (fun a => match a with [0] => 3%R | _ => 7%R end) eq_refl) as (lo & hi & o & E & L & _ & _ & _ & Ro & _).
  - eexists; split; reflexivity.
  - repeat split; intros i I; inversion I as [|x ? ? ? X I']; subst; inversion I'; subst; destruct x as [|[|x]]; try lia; reflexivity.
  - cbn; lia.
  - exists [0], [1]; repeat split; try (repeat constructor; lia); lra.
  - exists lo, hi, o; split; [exact E|]; split; [exact L|]; split; [exact Ro|].
    eapply C161_normalize_refused; [reflexivity | exists (0, tiny); split; reflexivity | unfold tiny; discriminate].
Qed.
