(** PropSession.v - the command multiply on pictures, and the optimiser in a session with the commands of the program: C162, C163. *)
From Coq Require Import Reals Lra ZifyBool ZifyNat Ascii String FunctionalExtensionality.
From Verif Require Import Base CliModel CliProofs PipeProofs PropPipe CommandModel CommandProofs ArithModel ArithProofs.
From Verif Require Import ConvModel BigSum RSum ImageModel ImageFacts IndexModel ImageProofs GeomModel GeomProofs PixelModel PixelProofs OField JacobiModel SiftModel
  PropBmp BmpModel TurnModel TurnProofs PropTurn PropSift GaussModel GaussProofs PropGauss LanczosModel LanczosProofs PropScale
  FrameModel FrameProofs PropFrame FourierModel FourierProofs PropFourier AngleModel StageModel PropStage SessionModel.
From Coq Require Import Rdefinitions.
Open Scope nat_scope.
Ltac Zify.zify_post_hook ::= Z.div_mod_to_equations.

(** ** C162  multiply *)
Lemma scalar_Repr {A} (conv : A -> R) k im w h f : Repr im w h f -> 0 < w -> 0 < h ->
  exists o, multiplies_scalar (fun a v => conv a * v)%R 0%R k im = Ok o /\ Repr o w h (fun x y => (conv (f x y) * k)%R).
Proof.
  intros Rf Pw Ph; destruct (multiplies_scalar_ReprN (fun a v => conv a * v)%R 0%R k im [w; h] _ (proj1 (Repr_ReprN _ _ _ _) Rf)) as (o & E & Ro).
  - rewrite prodn2; nia.
  - exists o; split; [exact E | apply Repr_ReprN; exact Ro].
Qed.
Lemma pic_multiply_ok s k p w h f : sched1_ok s -> 0 < w -> 0 < h -> depicts p w h f ->
  exists t, pic_multiply s None k p = Ok t /\ depicts t w h (fun x y => map (fun v => v * k)%R (f x y)) /\ doubles t /\ channels t = channels p.
Proof.
  intros Hs Pw Ph D.
  destruct (planes_ok (fun A conv im => multiplies_scalar (fun a v => conv a * v)%R 0%R k im) s Hs w h (fun c x y => (c x y * k)%R) Pw Ph) with (p := p) (f := f)
    as (t & E & Dt & B & C); [intros c c' Ec x y X Y; rewrite Ec by auto; reflexivity | intros A conv im g Rg; apply scalar_Repr; auto | exact D |].
  exists t; split; [destruct p; exact E|]; split; [|auto].
  eapply depicts_ext; [exact Dt|]; intros x y X Y; cbv beta; rewrite <- (each_id (channels p) f x y) by (eapply depicts_length; eauto).
  unfold each; rewrite map_map; reflexivity.
Qed.

(** multiply without a policy: every value is multiplied, and the result is a picture of doubles, whatever the type was *)
Theorem C162_multiply {V F} load_file save_file as_pic (of_pic : rpic -> any V) parse_double sch s args i out factor rest (st : state V F) p w h f k :
  sched1_ok s -> args_filter args = i :: out :: factor :: rest -> parse_double factor = Ok k -> is_policy (extract_policy args) = false ->
  stands load_file as_pic st i p -> 0 < w -> 0 < h -> depicts p w h f ->
  exists t, multiply_pictures V F load_file save_file as_pic of_pic parse_double sch s args st = Ok (save_arg V F save_file st out (of_pic t)) /\
    doubles t /\ channels t = channels p /\ depicts t w h (fun x y => map (fun v => v * k)%R (f x y)).
Proof.
  intros Hs Fa Pk Np St Pw Ph D; destruct (pic_multiply_ok s k p w h f Hs Pw Ph D) as (t & E & Dt & B & C); exists t.
  unfold multiply_pictures; rewrite (pic_step load_file save_file as_pic of_pic 1 _ args st i out (factor :: rest) p Fa ltac:(cbn; lia) St); cbn [bind nth].
  rewrite Pk; cbn [bind]; unfold policy_of; rewrite Np, E; auto.
Qed.
Print Assumptions C162_multiply.

Lemma mult_int_ok t k z : (2 <= bits t <= 53)%Z -> mult_int t k z = Ok (fin_int_r (lowest t) (highest t) (IZR z * k)).
Proof.
  intros B; unfold mult_int, max_double; replace (bits t <=? 53)%Z with true by lia.
  pose proof (type_zero t ltac:(lia)) as Z0; pose proof (fin_int_r_range (lowest t) (highest t) (IZR z * k) Z0) as R0; unfold fin_int_r, rltb in *.
  assert (LH : (IZR (lowest t) <= IZR (highest t))%R) by (apply IZR_le; lia).
  destruct (Rlt_dec (IZR (highest t)) (IZR z * k)); destruct (Rlt_dec (IZR z * k) (IZR (lowest t))); cbv zeta; try lra;
    match goal with |- (if ?b then _ else _) = _ => replace b with true by lia end; reflexivity.
Qed.
(** multiply with a policy, a grey picture: the type of the picture is kept, and for an integral type the products are cut off *)
Theorem C162_grey_policy {V F} load_file save_file as_pic (of_pic : rpic -> any V) parse_double sch s args i out factor rest (st : state V F) p w h f k :
  (forall q, sched1_ok (sch q)) -> args_filter args = i :: out :: factor :: rest -> parse_double factor = Ok k -> is_policy (extract_policy args) = true ->
  stands load_file as_pic st i p -> 0 < w -> 0 < h -> exact_type p -> channels p = 1 -> depicts p w h f ->
  exists q g, multiply_pictures V F load_file save_file as_pic of_pic parse_double sch s args st = Ok (save_arg V F save_file st out (of_pic q)) /\
    same_kind p q /\ depicts q w h g /\ forall x y, x < w -> y < h -> held_as p (nth 0 (f x y) 0 * k)%R (nth 0 (g x y) 0%R).
Proof.
  intros Hs Fa Pk Np St Pw Ph ET C1 D.
  enough (X : exists q g, pic_multiply s (Some (sch (extract_policy args))) k p = Ok q /\ same_kind p q /\ depicts q w h g /\
    forall x y, x < w -> y < h -> held_as p (nth 0 (f x y) 0 * k)%R (nth 0 (g x y) 0%R)).
  { destruct X as (q & g & E & X); exists q, g; split; [|exact X].
    unfold multiply_pictures; rewrite (pic_step load_file save_file as_pic of_pic 1 _ args st i out (factor :: rest) p Fa ltac:(cbn; lia) St); cbn [bind nth].
    rewrite Pk; cbn [bind]; unfold policy_of; rewrite Np, E; reflexivity. }
  assert (Pp : 0 < prodn [w; h]) by (rewrite prodn2; nia).
  destruct p as [im|t im|im|im]; cbn [channels] in C1; try lia; destruct D as (g & Rg & Hg); pose proof (proj1 (Repr_ReprN _ _ _ _) Rg) as RN; cbn [pic_multiply exact_type] in *.
  - destruct (pixelwise1_policy_ReprN (sch (extract_policy args)) 0%R (fun v => v * k)%R im [w; h] _ (Hs _) RN Pp) as (o & -> & Ro); cbn [bind].
    exists (GReal o), (fun x y => [(g x y * k)%R]); split; [reflexivity|]; split; [exact I|]; split.
    + exists (fun x y => (g x y * k)%R); split; [apply Repr_ReprN; exact Ro | reflexivity].
    + intros x y X Y; cbn [held_as nth]; rewrite Hg by auto; reflexivity.
  - set (z := fun x y => fin_int_r (lowest t) (highest t) (IZR (g x y) * k)).
    destruct (fill_image (sch (extract_policy args)) 0%Z [w; h] (fun i => let* x := vget (pix im) i in mult_int t k x) (fun idx => z (nth 0 idx 0) (nth 1 idx 0)) (Hs _) Pp) as (o & E & Ro).
    { intros idx Hi; rewrite (vget_ReprN _ _ _ _ RN Hi); cbn [bind]; apply mult_int_ok; exact ET. }
    rewrite (ReprN_length _ _ _ RN), (ReprN_dims _ _ _ RN).
    destruct (fill _ _ _ _) as [data|e|]; cbn [bind] in *; try discriminate; rewrite E; cbn [bind].
    exists (GInt t o), (fun x y => [IZR (z x y)]); split; [reflexivity|]; split; [reflexivity|].
    pose proof (type_zero t ltac:(lia)) as Z0; split.
    + exists z; split; [apply Repr_ReprN; exact Ro|]; intros x y _ _; split; [reflexivity | apply fin_int_r_range; exact Z0].
    + intros x y X Y; cbn [held_as nth]; eexists; split; [reflexivity|]; rewrite (proj1 (Hg x y X Y)); cbn [nth].
      destruct (fin_int_r_cut (lowest t) (highest t) (IZR (g x y) * k)) as [C|C]; [exact C | lia].
Qed.
Print Assumptions C162_grey_policy.

(** no factor, or one that is not a number: nothing changes *)
Theorem C162_refused {V F} load_file save_file as_pic (of_pic : rpic -> any V) parse_double sch s args (st : state V F) :
  length (args_filter args) < 3 \/ (exists i out factor rest e, args_filter args = i :: out :: factor :: rest /\ parse_double factor = Throw e) ->
  multiply_pictures V F load_file save_file as_pic of_pic parse_double sch s args st = Ok st.
Proof.
  intros [L|(i & out & factor & rest & e & Fa & Pa)]; [apply pic_few; exact L|].
  eapply pic_refused; [exact Fa|]; right; exists e; cbn [nth]; rewrite Pa; reflexivity.
Qed.
Print Assumptions C162_refused.

Lemma fill_throws {B} s n (d : B) e : sched1_ok s -> 0 < n -> fill s n d (fun _ => Throw e) = Throw e.
Proof.
  intros Hs P; unfold fill; assert (N : s n <> []).
  { intros Z; pose proof (Permutation.Permutation_length (Hs n)) as L; rewrite Z, seq_length in L; cbn in L; lia. }
  destruct (s n) as [|i l]; [congruence | reflexivity].
Qed.
(** multiply with a policy, a picture with colours: the program ends.  Without the policy the products are stored *)
Theorem C162_colour_policy {V F} load_file save_file as_pic (of_pic : rpic -> any V) parse_double sch s args i out factor rest (st : state V F) p w h f k :
  (forall q, sched1_ok (sch q)) -> args_filter args = i :: out :: factor :: rest -> parse_double factor = Ok k ->
  stands load_file as_pic st i p -> 0 < w -> 0 < h -> channels p = 3 -> depicts p w h f ->
  is_policy (extract_policy args) = true ->
  multiply_pictures V F load_file save_file as_pic of_pic parse_double sch s args st = UB.
Proof.
  intros Hp Fa Pk St Pw Ph C3 D Np.
  unfold multiply_pictures; rewrite (pic_step load_file save_file as_pic of_pic 1 _ args st i out (factor :: rest) p Fa ltac:(cbn; lia) St); cbn [bind nth].
  rewrite Pk; cbn [bind]; unfold policy_of; rewrite Np.
  destruct p as [im|t im|im|im]; cbn [channels] in C3; try lia; destruct D as (g & (_ & L & _) & _); cbn [pic_multiply]; rewrite L, fill_throws by (auto; nia); reflexivity.
Qed.
Print Assumptions C162_colour_policy.

(** ** concrete pictures *)
Definition word_factor (a : str) : res R := if eqs a "1"%string then Ok 1%R else if eqs a "2"%string then Ok 2%R else Throw InvalidArgument.
Definition word_one (a : str) : bool := eqs a "1"%string.
Definition red : rpic := CReal (mkImage [1; 1] [[10; 0; 0]%R]).
Definition red_shown (_ _ : nat) : list R := [10; 0; 0]%R.
Lemma red_depicts : depicts red 1 1 red_shown.
Proof. exists red_shown; split; [repeat split; intros [|x] [|y] X Y; try lia; reflexivity | intros; split; reflexivity]. Qed.
Notation multiply_here := (multiply_pictures rpic unit none_load none_save see put word_factor (fun _ => seq0) seq0).
Lemma stage_stands n p l : map_find (sanitize n) (map (fun p => (fst p, (0, snd p))) l) = Some (0, p) -> stands none_load see (stage l) ("$"%char :: n) p.
Proof. intros M; exists (0, p); split; [exact M | reflexivity]. Qed.

(** A policy does not only say how to multiply: with it a picture with colours ends the program, and a picture of integers stays
    one, so that 20 times 2 in a signed type of six bits is 31. *)
Theorem C162_policy_refuted : exists args st t,
  multiply_here (lit "par" :: args) st = UB /\ multiply_here args st = Ok (save_arg rpic unit none_save st (lit "$b") (put t)) /\
  depicts t 1 1 (fun _ _ => [20; 0; 0]%R).
Proof.
  exists [lit "$a"; lit "$b"; lit "2"], (stage [(lit "a", red)]).
  assert (St : stands none_load see (stage [(lit "a", red)]) (lit "$a") red) by (apply (stage_stands (lit "a")); reflexivity).
  destruct (C162_multiply none_load none_save see put word_factor (fun _ => seq0) seq0 [lit "$a"; lit "$b"; lit "2"] (lit "$a") (lit "$b") (lit "2") [] _ red 1 1 red_shown 2
    sched1_seq0 eq_refl eq_refl eq_refl St ltac:(lia) ltac:(lia) red_depicts) as (t & E & _ & _ & D).
  exists t; split; [|split; [exact E|]].
  - apply (C162_colour_policy none_load none_save see put word_factor (fun _ => seq0) seq0 _ (lit "$a") (lit "$b") (lit "2") [] _ red 1 1 red_shown 2); first [exact red_depicts | reflexivity | exact St | lia | intros; apply sched1_seq0].
  - eapply depicts_ext; [exact D|]; intros x y _ _; cbn [red_shown map]; repeat (apply (f_equal2 cons); [ring|]); reflexivity.
Qed.
Print Assumptions C162_policy_refuted.
Theorem C162_type_refuted : exists args st t z,
  multiply_here args st = Ok (save_arg rpic unit none_save st (lit "$b") (put t)) /\ depicts t 1 1 (fun _ _ => [40%R]) /\
  multiply_here (lit "par" :: args) st = Ok (save_arg rpic unit none_save st (lit "$b") (put z)) /\ depicts z 1 1 (fun _ _ => [31%R]).
Proof.
  set (p := GInt (mkIty 6 true) (mkImage [1; 1] [20%Z])).
  assert (D0 : depicts p 1 1 (fun _ _ => [20%R])).
  { exists (fun _ _ => 20%Z); split; [repeat split; intros [|x] [|y] X Y; try lia; reflexivity | intros; split; [reflexivity | cbn; lia]]. }
  exists [lit "$a"; lit "$b"; lit "2"], (stage [(lit "a", p)]).
  assert (St : stands none_load see (stage [(lit "a", p)]) (lit "$a") p) by (apply (stage_stands (lit "a")); reflexivity).
  destruct (C162_multiply none_load none_save see put word_factor (fun _ => seq0) seq0 [lit "$a"; lit "$b"; lit "2"] (lit "$a") (lit "$b") (lit "2") [] _ p 1 1 _ 2
    sched1_seq0 eq_refl eq_refl eq_refl St ltac:(lia) ltac:(lia) D0) as (t & E & _ & _ & D).
  destruct (C162_grey_policy none_load none_save see put word_factor (fun _ => seq0) seq0 [lit "par"; lit "$a"; lit "$b"; lit "2"] (lit "$a") (lit "$b") (lit "2") [] _ p 1 1 _ 2
    (fun _ => sched1_seq0) eq_refl eq_refl eq_refl St ltac:(lia) ltac:(lia) ltac:(cbn; lia) eq_refl D0) as (z & g & Ez & Kz & Dz & Hz).
  exists t, z; split; [exact E|]; split; [|split; [exact Ez|]].
  - eapply depicts_ext; [exact D|]; intros x y _ _; cbn [map]; apply (f_equal2 cons); [ring | reflexivity].
  - eapply depicts_ext; [exact Dz|]; intros x y X Y; destruct (Hz x y X Y) as (n & Gn & C).
    replace (lowest (mkIty 6 true)) with (-32)%Z in C by reflexivity; replace (highest (mkIty 6 true)) with 31%Z in C by reflexivity; cbn [nth] in C.
    assert (n = 31%Z) as -> by (destruct C as [(C & _)|[(_ & C)|(C & _)]]; [exfalso; lra | exact C | exfalso; lra]).
    pose proof (depicts_length z 1 1 g x y Dz X Y) as L.
    assert (Cz : channels z = 1).
    { destruct z; cbn in Kz; try contradiction; reflexivity. }
    rewrite Cz in L; destruct (g x y) as [|a [|b l]]; cbn in L; try lia; cbn [nth] in Gn; rewrite Gn; reflexivity.
Qed.
Print Assumptions C162_type_refuted.

(** [C162_policy_refuted] and [C162_type_refuted] meet the hypotheses of the theorems above; and a factor that is not a number: *)
Example C162_case : multiply_here [lit "seq"; lit "$a"; lit "$b"; lit "x"] (stage [(lit "a", red)]) = Ok (stage [(lit "a", red)]) /\
  multiply_here [lit "$a"; lit "$b"] (stage [(lit "a", red)]) = Ok (stage [(lit "a", red)]).
Proof.
  split; apply C162_refused; [right; exists (lit "$a"), (lit "$b"), (lit "x"), [], InvalidArgument; split; reflexivity | left; apply Nat.ltb_lt; reflexivity].
Qed.

(** ** C163  the optimiser *)
(** a picture of doubles without colours and with at least one pixel *)
Definition grey_doubles (v : any rpic) : Prop := fst v = 0 /\ exists im w h f, snd v = GReal im /\ 0 < w /\ 0 < h /\ Repr im w h f.
(** every variable holds one *)
Definition all_grey {F} (st : state rpic F) : Prop := forall n v, map_find n (vars rpic F st) = Some v -> grey_doubles v.

Definition greyb (v : any rpic) : bool :=
  (fst v =? 0) && match snd v with
                  | GReal im => match dims im with [w; h] => (0 <? w) && (0 <? h) && (length (pix im) =? w * h) | _ => false end
                  | _ => false
                  end.
Lemma greyb_spec v : greyb v = true <-> grey_doubles v.
Proof.
  unfold greyb, grey_doubles; destruct v as [t p]; cbn [fst snd]; split.
  - intros H; apply Bool.andb_true_iff in H as (T & H); apply Nat.eqb_eq in T; split; [exact T|].
    destruct p as [im| | |]; try discriminate; destruct (dims im) as [|w [|h [|]]] eqn:Dm; try discriminate.
    exists im, w, h, (fun x y => nth (y * w + x) (pix im) 0%R); split; [reflexivity|]; split; [lia|]; split; [lia|]; split; [exact Dm|]; split; [lia|].
    intros x y X Y; apply nth_error_nth'; nia.
  - intros (-> & im & w & h & f & -> & Pw & Ph & Dm & L & _); rewrite Dm; change (0 =? 0) with true; cbn [andb]; lia.
Qed.

Section Guard.
  Variable F : Type.
  Variable load_file : F -> str -> option (any rpic).
  Variable save_file : F -> str -> any rpic -> option F.
  Variable parse_double : str -> res R.
  Variable sch : str -> nat -> list nat.
  Variable s : nat -> list nat.
  Variable sg : nat -> nat -> list (nat * nat).
  Variable is_one : str -> bool.
  Variable more : registry rpic F.
  Variable Gm : str -> list str -> list str -> state rpic F -> any rpic -> option (any rpic).
  Variable putm : str -> F -> str -> any rpic -> F.
  Hypothesis Hs : sched1_ok s.
  Hypothesis Hg : sched_ok sg.
  Hypothesis Hp : forall q, sched1_ok (sch q).
  Hypothesis One : forall a, is_one a = true -> dollar a = false /\ a <> [] /\ parse_double a = Ok 1%R.
  Hypothesis Lf : forall f a v, load_file f a = Some v -> grey_doubles v.
  Hypothesis More : forall name sc h, map_find name more = Some (sc, h) ->
    usual sc /\ regular rpic F load_file Gm putm name sc h /\ forall args st, all_grey st -> all_grey (h args st).
  Notation state := (state rpic F).
  Notation transform := (transform_handler rpic F load_file save_file).
  Definition opt (r : res rpic) : option (any rpic) := match r with Ok o => Some (put o) | _ => None end.

  Lemma handler_transform extra op args st :
    handler_of rpic F (pic_command rpic F load_file save_file see put extra op) args st =
    transform extra (fun policy rest => match op policy rest with Ok f => Some (fun v => opt (f (snd v))) | _ => None end) args st.
  Proof.
    unfold handler_of, pic_command, transform_command, transform_handler, load, save; destruct (args_filter args) as [|i [|o rest]]; try reflexivity.
    destruct (length rest <? extra); [reflexivity|]; destruct (op (extract_policy args) rest) as [f|e|]; cbn [bind caught]; try reflexivity.
    destruct (load_arg rpic F load_file st i) as [v|]; cbn [need bind see]; [|reflexivity].
    destruct (f (snd v)); reflexivity.
  Qed.

  (** the commands, as they are on pictures of doubles, and harmless elsewhere *)
  Definition guard (f : rpic -> res rpic) (v : any rpic) : option (any rpic) := if greyb v then opt (f (snd v)) else Some v.
  Definition times (policy a : str) (v : any rpic) : option (any rpic) :=
    match parse_double a with Ok k => guard (pic_multiply s (policy_of sch policy) k) v | _ => None end.
  Definition guarded : registry rpic F :=
    (lit "copy", (IndependentSchema, copy_handler rpic F)) ::
    (lit "dct2", (TransformerSchema, transform 0 (fun _ _ => Some (guard (pic_dct s sg))))) ::
    (lit "idct2", (TransformerSchema, transform 0 (fun _ _ => Some (guard (pic_idct s sg))))) ::
    (lit "multiply", (TransformerSchema, transform 1 (fun policy rest => Some (times policy (nth 0 rest []))))) :: more.
  Definition Gg (name : str) (p args : list str) (st : state) (v : any rpic) : option (any rpic) :=
    if eqs name (lit "dct2") then guard (pic_dct s sg) v
    else if eqs name (lit "idct2") then guard (pic_idct s sg) v
    else if eqs name (lit "multiply") then (if length args <? 3 then None else times (first_word p) (nth 2 args []) v)
    else Gm name p args st v.
  Definition putg (name : str) : F -> str -> any rpic -> F :=
    if eqs name (lit "dct2") then put_file rpic F save_file
    else if eqs name (lit "idct2") then put_file rpic F save_file
    else if eqs name (lit "multiply") then put_file rpic F save_file
    else putm name.

  Lemma grey_depicts im w h f : Repr im w h f -> depicts (GReal im) w h (fun x y => [f x y]).
  Proof. intros Rf; exists f; auto. Qed.
  Lemma one_channel t w h f : depicts t w h f -> doubles t -> channels t = 1 -> exists im g, t = GReal im /\ Repr im w h g /\ forall x y, x < w -> y < h -> f x y = [g x y].
  Proof. destruct t; cbn; intros D B C; try lia; try contradiction; destruct D as (g & Rg & Hg'); eauto. Qed.
  Lemma dct_idct v : grey_doubles v -> exists w, grey_doubles w /\ guard (pic_dct s sg) v = Some w /\ guard (pic_idct s sg) w = Some v.
  Proof.
    intros G; pose proof G as (T & im & w & h & f & E & Pw & Ph & Rf); destruct v as [t p]; cbn [fst snd] in *; subst t p.
    destruct (pic_dct_ok s sg _ w h _ Hs Hg Pw Ph (grey_depicts im w h f Rf)) as (t & Et & Dt & B & C).
    destruct (pic_idct_ok s sg t w h _ Hs Hg Pw Ph Dt) as (o & Eo & Do & B' & C').
    rewrite C in C'; cbn [channels] in *.
    destruct (one_channel t w h _ Dt B C) as (it & gt & -> & Rt & _); destruct (one_channel o w h _ Do B' C') as (io & go & -> & Ro & Ho).
    assert (Gt : grey_doubles (0, GReal it)) by (split; [reflexivity|]; exists it, w, h, gt; auto).
    exists (0, GReal it); split; [exact Gt|]; unfold guard; rewrite (proj2 (greyb_spec _) G), (proj2 (greyb_spec _) Gt); cbn [snd]; rewrite Et, Eo; split; [reflexivity|].
    cbn [opt]; unfold put; enough (io = im) as -> by reflexivity; eapply Repr_unique; [exact Ro | exact Rf|]; intros x y X Y; specialize (Ho x y X Y).
    change (channels (GReal it)) with 1 in Ho; rewrite (each_each (bwd w h) (fwd w h) 1 (fun x y => [f x y])) in Ho; [injection Ho; auto| |reflexivity].
    intros k K; apply (bwd_fwd w h (fun a b => nth k [f a b] 0%R)); auto; intros a b Ha Hb; apply each_nth; exact K.
  Qed.
  Lemma idct_dct v : grey_doubles v -> exists w, grey_doubles w /\ guard (pic_idct s sg) v = Some w /\ guard (pic_dct s sg) w = Some v.
  Proof.
    intros G; pose proof G as (T & im & w & h & f & E & Pw & Ph & Rf); destruct v as [t p]; cbn [fst snd] in *; subst t p.
    destruct (pic_idct_ok s sg _ w h _ Hs Hg Pw Ph (grey_depicts im w h f Rf)) as (t & Et & Dt & B & C).
    destruct (pic_dct_ok s sg t w h _ Hs Hg Pw Ph Dt) as (o & Eo & Do & B' & C').
    rewrite C in C'; cbn [channels] in *.
    destruct (one_channel t w h _ Dt B C) as (it & gt & -> & Rt & _); destruct (one_channel o w h _ Do B' C') as (io & go & -> & Ro & Ho).
    assert (Gt : grey_doubles (0, GReal it)) by (split; [reflexivity|]; exists it, w, h, gt; auto).
    exists (0, GReal it); split; [exact Gt|]; unfold guard; rewrite (proj2 (greyb_spec _) G), (proj2 (greyb_spec _) Gt); cbn [snd]; rewrite Et, Eo; split; [reflexivity|].
    cbn [opt]; unfold put; enough (io = im) as -> by reflexivity; eapply Repr_unique; [exact Ro | exact Rf|]; intros x y X Y; specialize (Ho x y X Y).
    change (channels (GReal it)) with 1 in Ho; rewrite (each_each (fwd w h) (bwd w h) 1 (fun x y => [f x y])) in Ho; [injection Ho; auto| |reflexivity].
    intros k K; apply (fwd_bwd w h (fun a b => nth k [f a b] 0%R)); auto; intros a b Ha Hb; apply each_nth; exact K.
  Qed.
  Lemma mult_grey pol k v : grey_doubles v -> exists w, grey_doubles w /\ guard (pic_multiply s (policy_of sch pol) k) v = Some w /\ (k = 1%R -> w = v).
  Proof.
    intros G; pose proof G as (T & im & w & h & f & E & Pw & Ph & Rf); destruct v as [t p]; cbn [fst snd] in *; subst t p.
    assert (X : exists o, pic_multiply s (policy_of sch pol) k (GReal im) = Ok (GReal o) /\ Repr o w h (fun x y => (f x y * k)%R)).
    { unfold policy_of; destruct (is_policy pol).
      - assert (Pp : 0 < prodn [w; h]) by (rewrite prodn2; nia).
        destruct (pixelwise1_policy_ReprN (sch pol) 0%R (fun v => v * k)%R im [w; h] _ (Hp _) (proj1 (Repr_ReprN _ _ _ _) Rf) Pp) as (o & Eo & Ro).
        exists o; cbn [pic_multiply]; rewrite Eo; split; [reflexivity | apply Repr_ReprN; exact Ro].
      - destruct (scalar_Repr (fun v => v) k im w h f Rf Pw Ph) as (o & Eo & Ro); exists o; cbn [pic_multiply].
        change (multiplies_scalar Rmult 0%R k im) with (multiplies_scalar (fun a v => a * v)%R 0%R k im); rewrite Eo; auto. }
    destruct X as (o & Eo & Ro); exists (0, GReal o).
    assert (Go : grey_doubles (0, GReal o)) by (split; [reflexivity|]; exists o, w, h, (fun x y => (f x y * k)%R); auto).
    split; [exact Go|]; unfold guard; rewrite (proj2 (greyb_spec _) G); cbn [snd]; rewrite Eo; split; [reflexivity|].
    intros ->; enough (o = im) as -> by reflexivity; eapply Repr_unique; [exact Ro | exact Rf|]; intros x y _ _; cbv beta; apply Rmult_1_r.
  Qed.
  Lemma guard_other f v : ~ grey_doubles v -> guard f v = Some v.
  Proof. intros N; unfold guard; destruct (greyb v) eqn:E; [destruct (N (proj1 (greyb_spec v) E)) | reflexivity]. Qed.
  Lemma grey_dec v : grey_doubles v \/ ~ grey_doubles v.
  Proof. destruct (greyb v) eqn:E; [left; apply greyb_spec; exact E | right; intros G; apply greyb_spec in G; congruence]. Qed.

  Lemma guarded_well : well_behaved rpic F load_file guarded is_one Gg putg.
  Proof.
    split.
    - intros name sc h M; unfold guarded in M; cbn [map_find] in M.
      destruct (eqs_spec name (lit "copy")) as [->|N1]; [injection M as <- <-; reflexivity|].
      destruct (eqs_spec name (lit "dct2")) as [->|N2].
      { injection M as <- <-; split; [discriminate|]; split; [discriminate|]; split; [discriminate|].
        eapply routed_ext; [apply transform_routed| |reflexivity]; intros p args st v L L'; change (Z.to_nat (out_idx TransformerSchema)) with 1 in L'.
        destruct args as [|a [|b args]]; cbn in L, L'; try lia; reflexivity. }
      destruct (eqs_spec name (lit "idct2")) as [->|N3].
      { injection M as <- <-; split; [discriminate|]; split; [discriminate|]; split; [discriminate|].
        eapply routed_ext; [apply transform_routed| |reflexivity]; intros p args st v L L'; change (Z.to_nat (out_idx TransformerSchema)) with 1 in L'.
        destruct args as [|a [|b args]]; cbn in L, L'; try lia; reflexivity. }
      destruct (eqs_spec name (lit "multiply")) as [->|N4].
      { injection M as <- <-; split; [discriminate|]; split; [discriminate|]; split; [discriminate|].
        eapply routed_ext; [apply transform_routed| |reflexivity]; intros p args st v L L'; change (Z.to_nat (out_idx TransformerSchema)) with 1 in L'.
        destruct args as [|a [|b [|c args]]]; cbn in L, L'; try lia; reflexivity. }
      destruct (More name sc h M) as (_ & Rg & _).
      assert (Eg : Gg name = Gm name).
      { unfold Gg; destruct (eqs_spec name (lit "dct2")); [contradiction|]; destruct (eqs_spec name (lit "idct2")); [contradiction|]; destruct (eqs_spec name (lit "multiply")); [contradiction | reflexivity]. }
      assert (Ep : putg name = putm name).
      { unfold putg; destruct (eqs_spec name (lit "dct2")); [contradiction|]; destruct (eqs_spec name (lit "idct2")); [contradiction|]; destruct (eqs_spec name (lit "multiply")); [contradiction | reflexivity]. }
      unfold regular in *; rewrite Eg, Ep; exact Rg.
    - eexists; reflexivity.
    - intros sc h M; injection M as <- _; reflexivity.
    - intros a E; apply (One a E).
    - intros p args st v E; change (Gg (lit "multiply") p args st v) with (if length args <? 3 then None else times (first_word p) (nth 2 args []) v).
      destruct (One _ E) as (_ & N & P1). destruct (Nat.ltb_spec (length args) 3) as [L|L]; [rewrite nth_overflow in N by lia; congruence|].
      unfold times; rewrite P1; destruct (grey_dec v) as [G|G]; [|apply guard_other; exact G].
      destruct (mult_grey (first_word p) 1 v G) as (w & _ & -> & W); rewrite W; reflexivity.
    - intros p a st v p' a' st'.
      change (exists w, guard (pic_dct s sg) v = Some w /\ guard (pic_idct s sg) w = Some v).
      destruct (grey_dec v) as [G|G]; [destruct (dct_idct v G) as (w & _ & W); exists w; exact W | exists v; rewrite !guard_other by exact G; auto].
    - intros p a st v p' a' st'.
      change (exists w, guard (pic_idct s sg) v = Some w /\ guard (pic_dct s sg) w = Some v).
      destruct (grey_dec v) as [G|G]; [destruct (idct_dct v G) as (w & _ & W); exists w; exact W | exists v; rewrite !guard_other by exact G; auto].
  Qed.

  (** in a session with pictures of doubles the commands are the same *)
  Notation real := (session_registry rpic F load_file save_file see put parse_double sch s sg more).
  Lemma saved_grey st a v : all_grey st -> grey_doubles v -> all_grey (save_arg rpic F save_file st a v).
  Proof.
    intros A G; rewrite save_put; unfold put_arg; destruct (dollar a).
    - intros n u M; change (var rpic F (mkState rpic F (ws_store rpic (tl a) v (vars rpic F st)) (files rpic F st)) n = Some u) in M; rewrite var_store in M.
      destruct (eqs n (sanitize (tl a))); [injection M as <-; exact G | exact (A n u M)].
    - intros n u M; exact (A n u M).
  Qed.
  Lemma loaded_grey st a v : all_grey st -> load_arg rpic F load_file st a = Some v -> grey_doubles v.
  Proof.
    intros A; unfold load_arg; destruct (dollar a); [apply A|]; cbv zeta; destruct (dollar (sanitize a)); [|apply Lf].
    destruct (map_find (sanitize (tl (sanitize a))) (vars rpic F st)) as [[t u]|] eqn:M; [|discriminate].
    destruct (t =? CliModel.rgb_image); [|discriminate]; intros E; injection E as <-; exact (A _ _ M).
  Qed.
  Lemma transform_same extra s1 s2 args st : all_grey st ->
    (forall policy rest, extra <= length rest ->
      match s1 policy rest, s2 policy rest with
      | Some c1, Some c2 => forall v, grey_doubles v -> c1 v = c2 v /\ forall w, c1 v = Some w -> grey_doubles w
      | None, None => True
      | None, Some c2 => forall v, grey_doubles v -> c2 v = None
      | _, _ => False
      end) ->
    transform extra s1 args st = transform extra s2 args st /\ all_grey (transform extra s1 args st).
  Proof.
    intros A H; unfold transform_handler; destruct (args_filter args) as [|i [|o rest]]; [auto|auto|].
    destruct (Nat.ltb_spec (length rest) extra) as [|L]; [auto|].
    specialize (H (extract_policy args) rest L); destruct (s1 _ rest) as [c1|], (s2 _ rest) as [c2|]; [|contradiction| |auto].
    - destruct (load_arg rpic F load_file st i) as [v|] eqn:Ev; [|auto]; destruct (H v (loaded_grey _ _ _ A Ev)) as (<- & W).
      destruct (c1 v) as [w|]; [|auto]; split; [reflexivity | apply saved_grey; auto].
    - destruct (load_arg rpic F load_file st i) as [v|] eqn:Ev; [|auto]; rewrite (H v (loaded_grey _ _ _ A Ev)); auto.
  Qed.
  Lemma guard_grey f v : grey_doubles v -> guard f v = opt (f (snd v)).
  Proof. intros G; unfold guard; rewrite (proj2 (greyb_spec v) G); reflexivity. Qed.
  Lemma exec_same name args st : all_grey st ->
    execute rpic F real name args st = execute rpic F guarded name args st /\ all_grey (execute rpic F real name args st).
  Proof.
    intros A; unfold execute, session_registry, guarded; cbn [map_find].
    destruct (eqs name (lit "copy")).
    { split; [reflexivity|]; unfold copy_handler; destruct args as [|a [|b args]]; [auto|auto|]; destruct (negb (dollar a) || negb (dollar b)); [auto|].
      unfold ws_retrieve_any; destruct (map_find (sanitize (tl a)) (vars rpic F st)) as [v|] eqn:M; [|auto].
      intros n u Mu; change (var rpic F (mkState rpic F (ws_store rpic (tl b) v (vars rpic F st)) (files rpic F st)) n = Some u) in Mu; rewrite var_store in Mu.
      destruct (eqs n (sanitize (tl b))); [injection Mu as <-; eapply A; exact M | exact (A n u Mu)]. }
    destruct (eqs name (lit "dct2")).
    { unfold dct2_command; rewrite handler_transform; apply transform_same; [exact A|]; intros policy rest _ v G; rewrite <- (guard_grey (pic_dct s sg) v G); split; [reflexivity|].
      destruct (dct_idct v G) as (w & Gw & -> & _); intros u E; injection E as <-; exact Gw. }
    destruct (eqs name (lit "idct2")).
    { unfold idct2_command; rewrite handler_transform; apply transform_same; [exact A|]; intros policy rest _ v G; rewrite <- (guard_grey (pic_idct s sg) v G); split; [reflexivity|].
      destruct (idct_dct v G) as (w & Gw & -> & _); intros u E; injection E as <-; exact Gw. }
    destruct (eqs name (lit "multiply")).
    { unfold multiply_pictures; rewrite handler_transform; apply transform_same; [exact A|]; intros policy rest L; cbv beta; unfold times.
      destruct (parse_double (nth 0 rest [])) as [k|e|]; cbn [bind]; [|reflexivity|reflexivity].
      intros v G; rewrite <- (guard_grey _ v G); split; [reflexivity|]; destruct (mult_grey policy k v G) as (w & Gw & -> & _); intros u E; injection E as <-; exact Gw. }
    destruct (map_find name more) as [[sc h]|] eqn:M; [|auto]; destruct (More name sc h M) as (_ & _ & K); auto.
  Qed.
  Lemma run_same L : forall st, all_grey st -> run_pipeline rpic F real L st = run_pipeline rpic F guarded L st.
  Proof.
    unfold run_pipeline; induction L as [|c L IH]; intros st A; [reflexivity|]; cbn [fold_left].
    destruct (exec_same (fst c) (snd c) st A) as (<- & A'); apply IH; exact A'.
  Qed.
  Lemma same_schema : get_schema rpic F real = get_schema rpic F guarded.
  Proof.
    apply functional_extensionality; intros name; unfold get_schema, session_registry, guarded; cbn [map_find].
    destruct (eqs name (lit "copy")); [reflexivity|]; destruct (eqs name (lit "dct2")); [reflexivity|]; destruct (eqs name (lit "idct2")); [reflexivity|].
    destruct (eqs name (lit "multiply")); reflexivity.
  Qed.
  Lemma same_parse line : parse_line rpic F real line = parse_line rpic F guarded line.
  Proof. unfold parse_line, build; rewrite same_schema; reflexivity. Qed.
  Lemma same_optimize n l : optimize rpic F real is_one n l = optimize rpic F guarded is_one n l.
  Proof. unfold optimize, run_pass, pass, rule_one, update_in, update_out, get_io; rewrite same_schema; reflexivity. Qed.
  Lemma same_nice c : nice rpic F real is_one c <-> nice rpic F guarded is_one c.
  Proof. unfold nice, get_io; rewrite same_schema; reflexivity. Qed.
  Lemma session_same line L st : parse_line rpic F real line = Run L -> Forall user_arg (tokens line) -> Forall (nice rpic F real is_one) L -> no_pipes st -> all_grey st ->
    exists st', run_line rpic F real is_one line st = Some st' /\ same_for_user (run_pipeline rpic F real L st) st'.
  Proof.
    intros Pa Us Ni Np A; rewrite same_parse in Pa.
    destruct (C62_same_effect_partial rpic F load_file guarded is_one Gg putg line L st guarded_well) as (st' & E & Sf); auto.
    - intros name sc h M; unfold guarded in M; cbn [map_find] in M.
      repeat match type of M with (if ?b then _ else _) = _ => destruct b; [injection M as <- <-; unfold usual; cbn; lia|] end.
      apply (More name sc h M).
    - eapply Forall_impl; [|exact Ni]; intros c; apply same_nice.
    - exists st'; rewrite run_same by exact A; split; [|exact Sf].
      revert E; unfold run_line; rewrite same_parse, Pa, same_optimize; destruct (optimize _ _ _ _ _ _) as [L'|]; [|discriminate]; intros E; rewrite <- E; f_equal; apply run_same; exact A.
  Qed.
End Guard.

(** A session with pictures of doubles without colours, none read from a file, and with any further commands that are regular and keep
    such a session so: what the program does with a line is, for the user, what the commands do as they were written. *)
Theorem C163_same_effect : forall (F : Type) (load_file : F -> str -> option (any rpic)) save_file parse_double sch s sg is_one more Gm putm line L st,
  let reg := session_registry rpic F load_file save_file see put parse_double sch s sg more in
  sched1_ok s -> sched_ok sg -> (forall q, sched1_ok (sch q)) ->
  (forall a, is_one a = true -> dollar a = false /\ a <> [] /\ parse_double a = Ok 1%R) ->
  (forall f a v, load_file f a = Some v -> grey_doubles v) ->
  (forall name sc h, map_find name more = Some (sc, h) ->
    usual sc /\ regular rpic F load_file Gm putm name sc h /\ forall args st, all_grey st -> all_grey (h args st)) ->
  parse_line rpic F reg line = Run L -> Forall user_arg (tokens line) -> Forall (nice rpic F reg is_one) L -> no_pipes st -> all_grey st ->
  exists st', run_line rpic F reg is_one line st = Some st' /\ same_for_user (run_pipeline rpic F reg L st) st'.
Proof.
  intros F load_file save_file parse_double sch s sg is_one more Gm putm line L st reg Hs Hg Hp One Lf More Pa Us Ni Np A.
  eapply session_same; eauto.
Qed.
Print Assumptions C163_same_effect.

(** the registry of the examples: the commands of the program, and info, which only prints *)
Definition info_here : registry rpic unit := [(lit "info", (TerminatorSchema, fun _ st => st))].
Notation reg_here := (session_registry rpic unit none_load none_save see put word_factor (fun _ => seq0) seq0 grid info_here).
Notation line_here l st := (run_line rpic unit reg_here word_one (lit l) st).
Definition grey2 : rpic := GReal (mkImage [2; 1] [3%R; (1 / 2)%R]).
Definition line_163 : string := "dct2 $a | idct2 | multiply 1 | multiply 2 | $b".
Example C163_case : let st := stage [(lit "a", grey2)] in exists L st',
  parse_line rpic unit reg_here (lit line_163) = Run L /\ length L = 4 /\
  optimize rpic unit reg_here word_one 9 L = Some [(lit "multiply", [lit "$a"; lit "$b"; lit "2"])] /\
  line_here line_163 st = Some st' /\ same_for_user (run_pipeline rpic unit reg_here L st) st' /\
  exists t, map_find (lit "b") (vars rpic unit st') = Some (0, t) /\ depicts t 2 1 (fun x _ => [nth x [6; 1]%R 0%R]).
Proof.
  intros st; pose (L := [(lit "dct2", [lit "$a"; lit "$__pipe_0"]); (lit "idct2", [lit "$__pipe_0"; lit "$__pipe_1"]);
    (lit "multiply", [lit "$__pipe_1"; lit "$__pipe_2"; lit "1"]); (lit "multiply", [lit "$__pipe_2"; lit "$b"; lit "2"])]).
  assert (Pa : parse_line rpic unit reg_here (lit line_163) = Run L) by (vm_compute; reflexivity).
  assert (Op : optimize rpic unit reg_here word_one 9 L = Some [(lit "multiply", [lit "$a"; lit "$b"; lit "2"])]) by (vm_compute; reflexivity).
  assert (Gr : depicts grey2 2 1 (fun x _ => [nth x [3; 1 / 2]%R 0%R])).
  { exists (fun x _ => nth x [3; 1 / 2]%R 0%R); split; [|reflexivity]; repeat split; intros [|[|x]] [|y] X Y; try lia; reflexivity. }
  assert (St : stands none_load see st (lit "$a") grey2) by (apply (stage_stands (lit "a")); reflexivity).
  destruct (C163_same_effect unit none_load none_save word_factor (fun _ => seq0) seq0 grid word_one info_here (fun _ _ _ _ v => Some v) (fun _ f _ _ => f)
    (lit line_163) L st) as (st' & Rl & Sf).
  - exact sched1_seq0.
  - exact sched_ok_grid.
  - intros _; exact sched1_seq0.
  - intros a; unfold word_one; destruct (eqs_spec a "1"%string) as [->|]; [|discriminate]; intros _; repeat split; discriminate.
  - discriminate.
  - intros name sc h M; unfold info_here in M; cbn [map_find] in M; destruct (eqs_spec name (lit "info")) as [->|]; [|discriminate]; injection M as <- <-.
    split; [unfold usual; cbn; lia|]; split; [|auto]; intros args s1 s2 A; auto.
  - exact Pa.
  - apply user_args; vm_compute; reflexivity.
  - repeat apply Forall_cons; try apply Forall_nil; vm_compute; intuition discriminate.
  - intros m; reflexivity.
  - intros n v M; unfold st, stage in M; cbn [vars map_find map fst snd] in M; destruct (eqs n (lit "a")); [|discriminate]; injection M as <-.
    split; [reflexivity|]; destruct Gr as (g & Rg & _); exists (mkImage [2; 1] [3; 1 / 2]%R), 2, 1, g; repeat split; auto; apply Rg.
  - exists L, st'; split; [exact Pa|]; split; [reflexivity|]; split; [exact Op|]; split; [exact Rl|]; split; [exact Sf|].
    destruct (C162_multiply none_load none_save see put word_factor (fun _ => seq0) seq0 [lit "$a"; lit "$b"; lit "2"] (lit "$a") (lit "$b") (lit "2") [] _ grey2 2 1 _ 2
      sched1_seq0 eq_refl eq_refl eq_refl St ltac:(lia) ltac:(lia) Gr) as (t & E & _ & _ & D).
    exists t; split.
    + unfold run_line in Rl; rewrite Pa in Rl; change (2 * length L + 1) with 9 in Rl; rewrite Op in Rl; injection Rl as <-.
      change (map_find (lit "b") (vars rpic unit (handler_of rpic unit multiply_here [lit "$a"; lit "$b"; lit "2"] st)) = Some (0, t)).
      unfold handler_of; rewrite E; reflexivity.
    + eapply depicts_ext; [exact D|]; intros x y X _; destruct x as [|[|x]]; try lia; cbn [nth map]; apply (f_equal2 cons); solve [reflexivity | field].
Qed.

(** On integers the transforms do not cancel: as written they store doubles, and the copy that the optimiser makes of them stores what
    was there, a picture of integers *)
Theorem C163_integers_refuted : exists line L st s' o o',
  parse_line rpic unit reg_here (lit line) = Run L /\ no_pipes st /\ line_here line st = Some s' /\
  map_find (lit "b") (vars rpic unit (run_pipeline rpic unit reg_here L st)) = Some o /\ doubles (snd o) /\
  map_find (lit "b") (vars rpic unit s') = Some o' /\ ~ doubles (snd o').
Proof.
  pose (st := stage [(lit "a", tiny)]).
  pose (L := [(lit "dct2", [lit "$a"; lit "$__pipe_0"]); (lit "idct2", [lit "$__pipe_0"; lit "$b"])]).
  assert (Pa : parse_line rpic unit reg_here (lit "dct2 $a | idct2 | $b") = Run L) by (vm_compute; reflexivity).
  assert (St : stands none_load see st (lit "$a") tiny) by (apply (stage_stands (lit "a")); reflexivity).
  destruct (C158_round_trip none_load none_save see put seq0 grid seq0 grid [lit "$a"; lit "$__pipe_0"] [lit "$__pipe_0"; lit "$b"] (lit "$a") (lit "$__pipe_0") (lit "$b") [] []
    st tiny 2 1 shown sched1_seq0 sched_ok_grid sched1_seq0 sched_ok_grid ltac:(reflexivity) eq_refl eq_refl eq_refl eq_refl St ltac:(lia) ltac:(lia) tiny_depicts)
    as ((st1 & st2 & E1 & E2 & o & (v & Ev & Eo) & B & _) & _).
  exists "dct2 $a | idct2 | $b"%string, L, st, (execute rpic unit reg_here (lit "copy") [lit "$a"; lit "$b"] st), v, (0, tiny).
  split; [exact Pa|]; split; [intros m; reflexivity|]; split.
  { unfold run_line; rewrite Pa; change (2 * length L + 1) with 5.
    assert (Op : optimize rpic unit reg_here word_one 5 L = Some [(lit "copy", [lit "$a"; lit "$b"])]) by (vm_compute; reflexivity).
    rewrite Op; reflexivity. }
  injection Eo as <-; split; [|split; [exact B | split; [reflexivity | intros []]]].
  change (run_pipeline rpic unit reg_here L st) with (handler_of rpic unit (idct2_command rpic unit none_load none_save see put seq0 grid) [lit "$__pipe_0"; lit "$b"]
    (handler_of rpic unit (dct2_command rpic unit none_load none_save see put seq0 grid) [lit "$a"; lit "$__pipe_0"] st)).
  unfold handler_of at 2; rewrite E1; unfold handler_of; rewrite E2.
  change (load_arg rpic unit none_load st2 (lit "$b")) with (map_find (lit "b") (vars rpic unit st2)) in Ev; exact Ev.
Qed.
Print Assumptions C163_integers_refuted.

(** Multiplying colours by one with a policy ends the program; the copy that the optimiser makes of it does not *)
Theorem C163_colours_refuted : exists line name args st s',
  parse_line rpic unit reg_here (lit line) = Run [(name, args)] /\ no_pipes st /\ get_schema rpic unit reg_here name = Some TransformerSchema /\
  name = lit "multiply" /\ multiply_here args st = UB /\
  line_here line st = Some s' /\ map_find (lit "b") (vars rpic unit s') = Some (0, red).
Proof.
  pose (st := stage [(lit "a", red)]); pose (args := [lit "par"; lit "$a"; lit "$b"; lit "1"]).
  assert (Pa : parse_line rpic unit reg_here (lit "multiply par $a $b 1") = Run [(lit "multiply", args)]) by (vm_compute; reflexivity).
  assert (St : stands none_load see st (lit "$a") red) by (apply (stage_stands (lit "a")); reflexivity).
  exists "multiply par $a $b 1"%string, (lit "multiply"), args, st, (execute rpic unit reg_here (lit "copy") [lit "$a"; lit "$b"] st).
  split; [exact Pa|]; split; [intros m; reflexivity|]; split; [reflexivity|]; split; [reflexivity|]; split; [|split; [|reflexivity]].
  - apply (C162_colour_policy none_load none_save see put word_factor (fun _ => seq0) seq0 args (lit "$a") (lit "$b") (lit "1") [] st red 1 1 red_shown 1);
      first [exact red_depicts | reflexivity | exact St | lia | intros; apply sched1_seq0].
  - unfold run_line; rewrite Pa.
    assert (Op : optimize rpic unit reg_here word_one 3 [(lit "multiply", args)] = Some [(lit "copy", [lit "$a"; lit "$b"])]) by (vm_compute; reflexivity).
    change (2 * length [(lit "multiply", args)] + 1) with 3; rewrite Op; reflexivity.
Qed.
Print Assumptions C163_colours_refuted.
