(** PropCommand.v - number arguments and the commands that make images: C129 to C133. *)
From Coq Require Import ZifyBool ZifyNat Ascii String QArith Qround.
From Verif Require Import Base ImageModel ImageFacts ImageProofs PixelModel PixelProofs HistModel HistProofs CliModel CliProofs PipeProofs PropCli
  CommandModel CommandProofs.
Open Scope nat_scope.
Ltac Zify.zify_post_hook ::= Z.div_mod_to_equations.

(** ** C129  numbers *)
Definition digit (c : ascii) : Prop := 48 <= nat_of_ascii c <= 57.
Definition no_digit_first (s : str) : Prop := forall c r, s = c :: r -> ~ digit c.
Lemma digit_of_spec c : digit_of c = None <-> ~ digit c.
Proof. unfold digit_of, digit; destruct (_ && _) eqn:E; split; try discriminate; try reflexivity; [intros H; exfalso; apply H; lia | intros _ D; lia]. Qed.
Lemma no_digit_spec s : no_digit s <-> no_digit_first s.
Proof.
  unfold no_digit_first; destruct s as [|c s]; cbn; [split; [discriminate|auto]|]; rewrite digit_of_spec; split.
  - intros H c' r E; injection E as <- <-; exact H.
  - intros H; eapply H; reflexivity.
Qed.
Lemma in_size v : (0 <=? v)%Z && (v <=? two64 - 1)%Z = true <-> (0 <= v < two64)%Z.
Proof. lia. Qed.

(** the texts that are read as the number [n]: zeros, the number as it is written, and anything that does not go on with a digit *)
Theorem C129_size : forall s n, parse_size s = Ok n <->
  exists t k rest, trimmed s t /\ t = repeat "0"%char k ++ decimal n ++ rest /\ no_digit_first rest /\ (Z.of_nat n < 2 ^ 64)%Z.
Proof.
  intros s n; unfold parse_size, parse_int, from_chars; change (0 <? 0)%Z with false; cbn [andb]; change (2 ^ 64)%Z with two64; split.
  - destruct (has_digit (sanitize s)) eqn:H; [|discriminate]; destruct (has_digit_shape _ H) as (k & m & rest & E & N & Sc); rewrite Sc.
    destruct (_ && _) eqn:B; [|discriminate]; cbn [bind]; intros Q; injection Q as <-; rewrite Nat2Z.id.
    exists (sanitize s), k, rest; split; [apply C60_sanitize; reflexivity|]; split; [exact E|]; split; [apply no_digit_spec, N|].
    apply in_size in B; lia.
  - intros (t & k & rest & T & E & N & B); apply C60_sanitize in T; apply no_digit_spec in N; rewrite T, E.
    rewrite scan_decimal by exact N.
    assert (H : has_digit (repeat "0"%char k ++ decimal n ++ rest) = true).
    { rewrite app_assoc; apply has_digit_app; [apply Forall_app; split; [apply digits_zeros | apply decimal_digits]|].
      pose proof (decimal_nonempty n); destruct (repeat "0"%char k), (decimal n); cbn; congruence. }
    rewrite H; replace ((0 <=? Z.of_nat n)%Z && (Z.of_nat n <=? two64 - 1)%Z) with true by (symmetry; apply in_size; lia); cbn [bind].
    rewrite Nat2Z.id; reflexivity.
Qed.
Print Assumptions C129_size.

Lemma trimmed_around pre t post : Forall junk pre -> Forall junk post -> Forall (fun c => ~ junk c) t -> trimmed (pre ++ t ++ post) t.
Proof.
  intros P Q T; exists pre, post; repeat split; auto.
  - intros c r ->; inversion T; auto.
  - intros r c ->; apply Forall_app in T; destruct T as [_ T]; inversion T; auto.
Qed.
Lemma decimal_not_junk n : Forall (fun c => ~ junk c) (decimal n).
Proof. eapply Forall_impl; [|apply decimal_clean]; intros c; apply not_junk. Qed.
(** a number is read back from what std::to_string writes, whatever blanks and quotes are around it *)
Theorem C129_written : forall (pre : str) n (post : str), Forall junk pre -> Forall junk post -> (Z.of_nat n < 2 ^ 64)%Z ->
  parse_size (pre ++ decimal n ++ post) = Ok n.
Proof.
  intros pre n post P Q B; apply C129_size; exists (decimal n), 0, []; cbn [repeat app]; rewrite app_nil_r.
  split; [apply trimmed_around; auto; apply decimal_not_junk|]; repeat split; auto; discriminate.
Qed.
Print Assumptions C129_written.
(** everything else is refused: no text, a sign or a letter first, and numbers that do not fit *)
Theorem C129_refused : forall s t, trimmed s t -> no_digit_first t \/ (exists n, t = decimal n /\ (2 ^ 64 <= Z.of_nat n)%Z) ->
  parse_size s = Throw InvalidArgument.
Proof.
  intros s t T H; apply C60_sanitize in T; unfold parse_size, parse_int, from_chars; rewrite T; change (0 <? 0)%Z with false; cbn [andb].
  destruct H as [H|(n & -> & B)].
  - apply no_digit_spec in H; assert (E : has_digit t = false) by (destruct t as [|c t]; cbn in *; [|rewrite H]; reflexivity); rewrite E; reflexivity.
  - pose proof (scan_decimal 0 n [] I) as Sc; cbn [repeat app] in Sc; rewrite app_nil_r in Sc; rewrite Sc.
    pose proof (has_digit_app (decimal n) [] (decimal_digits n) (decimal_nonempty n)) as HD; rewrite app_nil_r in HD; rewrite HD.
    change (2 ^ 64)%Z with two64 in B; replace ((0 <=? Z.of_nat n)%Z && (Z.of_nat n <=? two64 - 1)%Z) with false by lia; reflexivity.
Qed.
Print Assumptions C129_refused.
(** numbers of a signed type: a minus sign is understood, and the range is that of the type *)
Theorem C129_signed : forall t (pre : str) n (neg : bool) (post : str), signed t = true -> (1 <= bits t)%Z -> Forall junk pre -> Forall junk post ->
  let z := if neg then (- Z.of_nat n)%Z else Z.of_nat n in
  parse_elem t (pre ++ ((if neg then lit "-" else []) ++ decimal n) ++ post) =
    if ((- 2 ^ (bits t - 1) <=? z) && (z <? 2 ^ (bits t - 1)))%Z then Ok z else Throw InvalidArgument.
Proof.
  intros t pre n neg post St B P Q z.
  assert (T : sanitize (pre ++ ((if neg then lit "-" else []) ++ decimal n) ++ post) = (if neg then lit "-" else []) ++ decimal n).
  { apply C60_sanitize, trimmed_around; auto; apply Forall_app; split; [|apply decimal_not_junk].
    destruct neg; repeat constructor; apply not_junk; reflexivity. }
  unfold parse_elem, is_bool; rewrite St, andb_false_r; unfold parse_int, from_chars; rewrite T; unfold lowest, highest; rewrite St.
  assert (Pw : (1 <= 2 ^ (bits t - 1))%Z) by (pose proof (Z.pow_pos_nonneg 2 (bits t - 1)); lia).
  replace (- 2 ^ (bits t - 1) <? 0)%Z with true by lia; cbn [andb].
  pose proof (scan_decimal 0 n [] I) as Sc; cbn [repeat app] in Sc; rewrite app_nil_r in Sc.
  pose proof (has_digit_app (decimal n) [] (decimal_digits n) (decimal_nonempty n)) as HD; rewrite app_nil_r in HD.
  destruct neg.
  - change (lit "-" ++ decimal n) with ("-"%char :: decimal n); change (starts_with "-"%string ("-"%char :: decimal n)) with (starts_with [] (decimal n)).
    assert (E : starts_with [] (decimal n) = true) by (destruct (decimal n); reflexivity); rewrite E; cbn [tl]; rewrite HD, Sc.
    subst z; destruct (_ && _) eqn:H1, ((- 2 ^ (bits t - 1) <=? - Z.of_nat n)%Z && (- Z.of_nat n <? 2 ^ (bits t - 1))%Z) eqn:H2; auto; lia.
  - cbn [app]; assert (E : starts_with "-"%string (decimal n) = false).
    { pose proof (decimal_digits n) as D; pose proof (decimal_nonempty n); destruct (decimal n) as [|c r]; [congruence|].
      inversion D as [|? ? D1 ?]; subst; change (starts_with "-"%string (c :: r)) with (Ascii.eqb "-"%char c && starts_with [] r); destruct (Ascii.eqb_spec "-"%char c) as [<-|]; [exfalso; apply D1; reflexivity|reflexivity]. }
    rewrite E, HD, Sc; subst z; destruct (_ && _) eqn:H1, ((- 2 ^ (bits t - 1) <=? Z.of_nat n)%Z && (Z.of_nat n <? 2 ^ (bits t - 1))%Z) eqn:H2; auto; lia.
Qed.
Print Assumptions C129_signed.
(** texts that are no number are not refused *)
Theorem C129_refuted : exists s, Exists (fun c => ~ digit c /\ ~ junk c) s /\ exists n, parse_size s = Ok n.
Proof.
  exists (lit "3.7x"); split; [|exists 3; reflexivity].
  apply Exists_cons_tl, Exists_cons_hd; split; [unfold digit; vm_compute; lia | unfold junk; vm_compute; intuition discriminate].
Qed.
Print Assumptions C129_refuted.
Example C129_case : parse_size (lit " '0042' ") = Ok 42 /\ parse_size (lit "-3") = Throw InvalidArgument /\ parse_elem (mkIty 8 true) (lit "-128") = Ok (-128)%Z
  /\ parse_elem (mkIty 8 false) (lit "256") = Throw InvalidArgument /\ parse_size (lit "18446744073709551616") = Throw InvalidArgument.
Proof. repeat split; reflexivity. Qed.

(** ** C130  zeros and ones *)
Lemma parse_size_fits s n : parse_size s = Ok n -> fits n.
Proof. intros H; apply C129_size in H; destruct H as (_ & _ & _ & _ & _ & _ & H); exact H. Qed.
Theorem C130_constant {V F} save_file {A} (v : A) (of_image : image A -> any V) output dims sizes (st : state V F) :
  dims <> [] -> Forall2 (fun a n => parse_size a = Ok n) dims sizes -> 0 < prodn sizes -> (Z.of_nat (prodn sizes) < 2 ^ 64)%Z ->
  exists o, create_command V F save_file v of_image (output :: dims) st = Ok (save_arg V F save_file st output (of_image o))
    /\ ReprN o sizes (fun _ => v).
Proof.
  intros NE P Pp Fp; assert (E : mapM parse_size dims = Ok sizes).
  { clear -P; induction P as [|a n l l' E _ IH]; [reflexivity|]; cbn [mapM]; rewrite E; cbn [bind]; rewrite IH; reflexivity. }
  unfold create_command; destruct dims as [|a dims]; [congruence|]; rewrite E; cbn [bind]; unfold constant_image, save.
  rewrite wn_fits by exact Fp; rewrite repeat_length, Nat.eqb_refl; cbn [negb].
  exists (mkImage sizes (repeat v (prodn sizes))); split.
  - destruct (repeat v (prodn sizes)) as [|x l] eqn:Q; [|reflexivity]; apply (f_equal (@length A)) in Q; rewrite repeat_length in Q; cbn in Q; lia.
  - split; [reflexivity|]; cbn [pix]; rewrite repeat_length; split; [reflexivity|]; intros idx Hi; apply nth_error_repeat, off_lt; auto.
Qed.
Print Assumptions C130_constant.
(** an extent of zero, an argument that is no number, or no extent at all: nothing happens *)
Theorem C130_nothing {V F} save_file {A} (v : A) (of_image : image A -> any V) output dims (st : state V F) :
  dims = [] \/ (exists a, In a dims /\ forall n, parse_size a <> Ok n) \/ (exists a, In a dims /\ parse_size a = Ok 0) ->
  create_command V F save_file v of_image (output :: dims) st = Ok st.
Proof.
  intros H; unfold create_command; destruct dims as [|a dims]; [reflexivity|]; destruct H as [H|H]; [discriminate|].
  assert (NU : forall s, parse_size s <> UB) by (intros s; unfold parse_size, parse_int; destruct (from_chars _ _ _); discriminate).
  destruct (mapM parse_size (a :: dims)) as [sizes|e|] eqn:E; cbn [bind caught]; [|reflexivity|].
  - assert (P : Forall2 (fun a n => parse_size a = Ok n) (a :: dims) sizes).
    { clear -E; revert sizes E; induction (a :: dims) as [|b l IH]; intros sizes E; cbn [mapM] in E; [injection E as <-; constructor|].
      destruct (parse_size b) as [n| |] eqn:Eb; cbn [bind] in E; try discriminate; destruct (mapM parse_size l) as [ns| |]; cbn [bind] in E; try discriminate.
      injection E as <-; constructor; auto. }
    assert (Z0 : prodn sizes = 0).
    { destruct H as [(b & Hb & N)|(b & Hb & N)].
      - exfalso; clear -P Hb N; induction P as [|c n l l' Ec _ IH]; [destruct Hb|]; destruct Hb as [->|Hb]; [eapply N; exact Ec | auto].
      - clear -P Hb N; induction P as [|c n l l' Ec _ IH]; [destruct Hb|]; unfold prodn in *; cbn [fold_right].
        destruct Hb as [->|Hb]; [assert (n = 0) as -> by congruence; reflexivity | rewrite IH by exact Hb; lia]. }
    unfold constant_image; rewrite Z0; reflexivity.
  - exfalso; clear -E NU; induction (a :: dims) as [|b l IH]; cbn [mapM] in E; [discriminate|].
    specialize (NU b); destruct (parse_size b) as [n| |]; cbn [bind] in E; try discriminate; [|congruence].
    destruct (mapM parse_size l); cbn [bind] in E; try discriminate; auto.
Qed.
Print Assumptions C130_nothing.
(** extents whose product does not fit in std::size_t are not refused: an image with too few pixels is made *)
Theorem C130_refuted {V F} save_file {A} (v : A) (of_image : image A -> any V) output (st : state V F) : exists dims o,
  create_command V F save_file v of_image (output :: dims) st = Ok (save_arg V F save_file st output (of_image o))
  /\ length (pix o) < prodn (ImageModel.dims o).
Proof.
  exists [lit "9223372036854775809"; lit "2"], (mkImage [Z.to_nat 9223372036854775809; 2] [v; v]).
  assert (E : (wn (Z.of_nat (prodn [Z.to_nat 9223372036854775809; 2])) = 2 /\ 2 < prodn [Z.to_nat 9223372036854775809; 2])).
  { set (a := Z.to_nat 9223372036854775809); assert (Ha : Z.of_nat a = 9223372036854775809%Z) by (apply Z2Nat.id; lia); clearbody a.
    rewrite prodn2; split; [|nia]; unfold wn, w64; rewrite Nat2Z.inj_mul, Ha; reflexivity. }
  destruct E as [E1 E2]; split; [|exact E2].
  unfold create_command, save; cbn [mapM].
  assert (P : parse_size (lit "9223372036854775809") = Ok (Z.to_nat 9223372036854775809)).
  { unfold parse_size; replace (parse_int 0 (two64 - 1) (lit "9223372036854775809")) with (@Ok Z 9223372036854775809%Z) by (vm_compute; reflexivity); reflexivity. }
  rewrite P; change (parse_size (lit "2")) with (@Ok nat 2); cbn [bind]; unfold constant_image; rewrite E1; reflexivity.
Qed.
Print Assumptions C130_refuted.

Example C130_case : create_command (image nat) unit (fun _ _ _ => None) 1 (fun o => (6, o)) [lit "$o"; lit "3"; lit "02"] (mkState _ _ [] tt)
  = Ok (mkState _ _ [(lit "o", (6, mkImage [3; 2] [1; 1; 1; 1; 1; 1]))] tt)
  /\ create_command (image nat) unit (fun _ _ _ => None) 1 (fun o => (6, o)) [lit "$o"; lit "3"; lit "x"] (mkState _ _ [] tt) = Ok (mkState _ _ [] tt).
Proof. split; reflexivity. Qed.

(** ** C131  grid *)
Section Policies.
  Context (sch : str -> nat -> list nat) (Hsch : forall p, sched1_ok (sch p)).
  Lemma policy_ok p : pol_ok (policy_of sch p).
  Proof. unfold policy_of; destruct (is_policy p); cbn; auto. Qed.
End Policies.
(** the arguments without the policy words *)
Lemma scalar_filter args : snd (scalar_args args) = args_filter args.
Proof. rewrite scalar_args_spec; reflexivity. Qed.

Theorem C131_grid {V F} save_file sch (of_rgb : image (list Z) -> any V) args output wa ha rest w h size (st : state V F) :
  (forall p, sched1_ok (sch p)) -> args_filter args = output :: wa :: ha :: rest -> parse_size wa = Ok w -> parse_size ha = Ok h ->
  match rest with [] => size = 10 | a :: _ => parse_size a = Ok size end -> 0 < size -> (Z.of_nat (w * h) < 2 ^ 64)%Z ->
  exists o g, grid_command V F save_file sch of_rgb args st = Ok (save_arg V F save_file st output (of_rgb o)) /\ Repr o w h g
    /\ forall x y, g x y = [0; 0; 0]%Z /\ (Nat.divide size x \/ Nat.divide size y) \/ g x y = [255; 255; 255]%Z /\ ~ (Nat.divide size x \/ Nat.divide size y).
Proof.
  intros Hs Fa Pw Ph Ps Sz Fp; unfold grid_command; pose proof (scalar_filter args) as Q; rewrite Fa in Q.
  destruct (scalar_args args) as [policy l]; cbn [snd] in Q; subst l; rewrite Pw, Ph; cbn [bind].
  replace (match rest with [] => Ok 10 | a :: _ => parse_size a end) with (Ok size) by (destruct rest; congruence); cbn [bind].
  destruct (paint_Repr [0; 0; 0]%Z (policy_of sch policy) w h (grid_pixel size)
    (fun x y => if (x mod size =? 0) || (y mod size =? 0) then [0; 0; 0]%Z else [255; 255; 255]%Z)) as (o & E & R).
  - apply policy_ok, Hs.
  - exact Fp.
  - intros x y _ _; unfold grid_pixel; destruct (Nat.eqb_spec size 0); [lia|reflexivity].
  - rewrite E; cbn [bind caught]; unfold save; eexists; eexists; split; [reflexivity|]; split; [exact R|]; intros x y; cbv beta.
    destruct (Nat.eqb_spec (x mod size) 0) as [X|X], (Nat.eqb_spec (y mod size) 0) as [Y|Y]; cbn [orb];
      rewrite Nat.mod_divide in X, Y by lia; tauto.
Qed.
Print Assumptions C131_grid.
(** a cell size of zero is not refused *)
Theorem C131_refuted : forall V F save_file sch (of_rgb : image (list Z) -> any V) args output wa ha sa w h (st : state V F),
  (forall p, sched1_ok (sch p)) -> args_filter args = [output; wa; ha; sa] -> parse_size wa = Ok w -> parse_size ha = Ok h -> parse_size sa = Ok 0 ->
  0 < w * h -> (Z.of_nat (w * h) < 2 ^ 64)%Z -> grid_command V F save_file sch of_rgb args st = UB.
Proof.
  intros V F save_file sch of_rgb args output wa ha sa w h st Hs Fa Pw Ph Pz P Fp.
  unfold grid_command; pose proof (scalar_filter args) as Q; rewrite Fa in Q.
  destruct (scalar_args args) as [policy l]; cbn [snd] in Q; subst l; rewrite Pw, Ph, Pz; cbn [bind]; unfold paint.
  pose proof (policy_ok sch Hs policy) as PO; destruct (policy_of sch policy) as [s|].
  - rewrite (for_list_first _ _ _ UB); [reflexivity| |reflexivity|discriminate].
    rewrite wn_fits by exact Fp; intros E; assert (I : In 0 (s (w * h))) by (apply sched1_in; auto); rewrite E in I; destruct I.
  - rewrite (for_list_first _ _ _ UB); [reflexivity| |reflexivity|discriminate].
    intros E; assert (I : In (0, 0) (grid h w)) by (apply in_grid; cbn; nia); rewrite E in I; destruct I.
Qed.
Print Assumptions C131_refuted.
Example C131_case : grid_command (image (list Z)) unit (fun _ _ _ => None) (fun _ => seq0) (fun o => (0, o)) [lit "$g"; lit "par"; lit "3"; lit "2"; lit "2"] (mkState _ _ [] tt)
  = Ok (mkState _ _ [(lit "g", (0, mkImage [3; 2] [[0; 0; 0]; [0; 0; 0]; [0; 0; 0]; [0; 0; 0]; [255; 255; 255]; [0; 0; 0]]%Z))] tt).
Proof. reflexivity. Qed.

(** ** C132  constructRGB *)
Definition loads {V F} load_file (as_plane : any V -> option (image Z)) (st : state V F) (a : str) (im : image Z) : Prop :=
  exists v, load_arg V F load_file st a = Some v /\ as_plane v = Some im.
Definition bytes (w h : nat) (f : nat -> nat -> Z) : Prop := forall x y, x < w -> y < h -> (0 <= f x y < 256)%Z.
Lemma u8_byte z : (0 <= z < 256)%Z -> u8 z = z.
Proof. intros H; apply Z.mod_small, H. Qed.
Theorem C132_construct {V F} load_file save_file sch (of_rgb : image (list Z) -> any V) as_plane args ra ga ba output rest r g b w h fr fg fb (st : state V F) :
  (forall p, sched1_ok (sch p)) -> args_filter args = ra :: ga :: ba :: output :: rest ->
  loads load_file as_plane st ra r -> loads load_file as_plane st ga g -> loads load_file as_plane st ba b ->
  Repr r w h fr -> Repr g w h fg -> Repr b w h fb -> bytes w h fr -> bytes w h fg -> bytes w h fb -> (Z.of_nat (w * h) < 2 ^ 64)%Z ->
  exists o, construct_command V F load_file save_file sch of_rgb as_plane args st = Ok (save_arg V F save_file st output (of_rgb o))
    /\ Repr o w h (fun x y => [fr x y; fg x y; fb x y]).
Proof.
  intros Hs Fa (vr & Lr & Ar) (vg & Lg & Ag) (vb & Lb & Ab) Rr Rg Rb Br Bg Bb Fp; unfold construct_command; rewrite Fa; unfold load.
  rewrite Lr, Lg, Lb; cbn [need bind]; rewrite Ar, Ag, Ab; cbn [need bind]; unfold rgb_planes.
  rewrite (get_width_Repr _ _ _ _ Rr), (get_height_Repr _ _ _ _ Rr), (get_width_Repr _ _ _ _ Rg), (get_height_Repr _ _ _ _ Rg),
    (get_width_Repr _ _ _ _ Rb), (get_height_Repr _ _ _ _ Rb); cbn [bind]; rewrite !Nat.eqb_refl; cbn [negb orb].
  match goal with |- context [paint ?p w h ?f ?i] => destruct (paint_Repr [0; 0; 0]%Z p w h f (fun x y => [fr x y; fg x y; fb x y])) as (o & E & R) end.
  - apply policy_ok, Hs.
  - exact Fp.
  - intros x y Hx Hy; rewrite (at_Repr _ _ _ _ _ _ Rr), (at_Repr _ _ _ _ _ _ Rg), (at_Repr _ _ _ _ _ _ Rb) by auto; cbn [bind].
    rewrite !u8_byte by auto; reflexivity.
  - rewrite E; exists o; split; [reflexivity | exact R].
Qed.
Print Assumptions C132_construct.
(** the planes of an image give the image back *)
Theorem C132_planes {V F} load_file save_file sch (of_rgb : image (list Z) -> any V) as_plane args ra ga ba output rest im w h s r g b (st : state V F) :
  (forall p, sched1_ok (sch p)) -> sched1_ok s -> args_filter args = ra :: ga :: ba :: output :: rest ->
  loads load_file as_plane st ra r -> loads load_file as_plane st ga g -> loads load_file as_plane st ba b ->
  wf im -> dims im = [w; h] -> 0 < w * h -> (Z.of_nat (w * h) < 2 ^ 64)%Z ->
  Forall (fun p => length p = 3 /\ Forall (fun c => 0 <= c < 256)%Z p) (pix im) ->
  get_plane s 0%Z im 0 = Ok r -> get_plane s 0%Z im 1 = Ok g -> get_plane s 0%Z im 2 = Ok b ->
  construct_command V F load_file save_file sch of_rgb as_plane args st = Ok (save_arg V F save_file st output (of_rgb im)).
Proof.
  intros Hs Hs1 Fa Lr Lg Lb Wf D P Fp Px Pr Pg Pb.
  assert (HR : ReprN im [w; h] (fun idx => nth (off [w; h] idx) (pix im) [])) by (rewrite <- D; apply ReprN_exists; exact Wf).
  assert (HP : forall idx, in_range [w; h] idx -> exists a b' c, nth (off [w; h] idx) (pix im) [] = [a; b'; c] /\ (0 <= a < 256)%Z /\ (0 <= b' < 256)%Z /\ (0 <= c < 256)%Z).
  { intros idx Hi; rewrite Forall_forall in Px; destruct (Px (nth (off [w; h] idx) (pix im) [])) as [L3 F3].
    - apply nth_In; rewrite Wf, D; apply off_lt; exact Hi.
    - destruct (nth (off [w; h] idx) (pix im) []) as [|a [|b' [|c [|]]]]; try discriminate L3; exists a, b', c.
      inversion F3 as [|? ? Fa1 F3']; subst; inversion F3' as [|? ? Fa2 F3'']; subst; inversion F3'' as [|? ? Fa3 ?]; subst; auto. }
  assert (G : forall k p, k < 3 -> get_plane s 0%Z im k = Ok p -> Repr p w h (fun x y => nth k (nth (off [w; h] [x; y]) (pix im) []) 0%Z)
    /\ bytes w h (fun x y => nth k (nth (off [w; h] [x; y]) (pix im) []) 0%Z)).
  { intros k p Hk E; unfold get_plane in E; replace (count im) with (prodn [w; h]) in E by (unfold count; rewrite D; reflexivity); rewrite D in E.
    destruct (fill_image s 0%Z [w; h] (fun i => let* q := vget (pix im) i in vget q k) (fun idx => nth k (nth (off [w; h] idx) (pix im) []) 0%Z))
      as (o & E' & Ro); auto.
    - rewrite prodn2; exact P.
    - intros idx Hi; rewrite (vget_nth _ _ []) by (rewrite Wf, D; apply off_lt; exact Hi); cbn [bind].
      destruct (HP idx Hi) as (a & b' & c & Eq & _); rewrite Eq; destruct k as [|[|[|k]]]; try lia; reflexivity.
    - rewrite E in E'; injection E' as <-; split.
      + apply Repr_ReprN; eapply ReprN_ext; [exact Ro|]; intros idx Hi.
        inversion Hi as [|x ? ? ? ? Q2]; subst; inversion Q2 as [|y ? ? ? ? Q3]; subst; inversion Q3; reflexivity.
      + intros x y Hx Hy; assert (Hi : in_range [w; h] [x; y]) by (repeat constructor; auto); destruct (HP _ Hi) as (a & b' & c & Eq & Ba & Bb & Bc).
        rewrite Eq; destruct k as [|[|[|k]]]; try lia; cbn; auto. }
  destruct (G 0 r) as [Rr Br]; auto; destruct (G 1 g) as [Rg Bg]; auto; destruct (G 2 b) as [Rb Bb]; auto.
  destruct (C132_construct load_file save_file sch of_rgb as_plane args ra ga ba output rest r g b w h _ _ _ st Hs Fa Lr Lg Lb Rr Rg Rb Br Bg Bb Fp) as (o & E & Ro).
  rewrite E; do 3 f_equal; eapply Repr_unique; [exact Ro | |].
  - apply Repr_ReprN; eapply ReprN_ext; [exact HR|]; intros idx Hi.
    inversion Hi as [|x ? ? ? ? Q2]; subst; inversion Q2 as [|y ? ? ? ? Q3]; subst; inversion Q3; subst.
    instantiate (1 := fun x y => nth (off [w; h] [x; y]) (pix im) []); reflexivity.
  - intros x y Hx Hy; cbv beta; assert (Hi : in_range [w; h] [x; y]) by (repeat constructor; auto); destruct (HP _ Hi) as (a & b' & c & Eq & _).
    rewrite Eq; reflexivity.
Qed.
Print Assumptions C132_planes.
(** planes of different sizes: nothing happens *)
Theorem C132_mismatch {V F} load_file save_file sch (of_rgb : image (list Z) -> any V) as_plane args ra ga ba output rest r g b (st : state V F) wr hr wg hg wb hb :
  args_filter args = ra :: ga :: ba :: output :: rest ->
  loads load_file as_plane st ra r -> loads load_file as_plane st ga g -> loads load_file as_plane st ba b ->
  dims r = [wr; hr] -> dims g = [wg; hg] -> dims b = [wb; hb] -> (wr, hr) <> (wg, hg) \/ (wr, hr) <> (wb, hb) ->
  construct_command V F load_file save_file sch of_rgb as_plane args st = Ok st.
Proof.
  intros Fa (vr & Lr & Ar) (vg & Lg & Ag) (vb & Lb & Ab) Dr Dg Db H; unfold construct_command; rewrite Fa; unfold load.
  rewrite Lr, Lg, Lb; cbn [need bind]; rewrite Ar, Ag, Ab; cbn [need bind]; unfold rgb_planes, get_width, get_height, get_dimensionality.
  rewrite Dr, Dg, Db; cbn [length Nat.ltb Nat.leb vget nth_error bind].
  destruct (Nat.eqb_spec wr wg), (Nat.eqb_spec hr hg), (Nat.eqb_spec wr wb), (Nat.eqb_spec hr hb); cbn [negb orb]; try reflexivity.
  exfalso; subst; destruct H as [H|H]; apply H; reflexivity.
Qed.
Print Assumptions C132_mismatch.
(** planes with one extent: the pixels are lost; planes with three: without a policy nothing happens, and with one the program ends *)
Theorem C132_refuted {V F} load_file save_file sch (of_rgb : image (list Z) -> any V) as_plane args ra ga ba output rest r g b (st : state V F) :
  (forall p, sched1_ok (sch p)) -> args_filter args = ra :: ga :: ba :: output :: rest ->
  loads load_file as_plane st ra r -> loads load_file as_plane st ga g -> loads load_file as_plane st ba b ->
  (forall n, dims r = [n] -> dims g = [n] -> dims b = [n] ->
     construct_command V F load_file save_file sch of_rgb as_plane args st = Ok (save_arg V F save_file st output (of_rgb (mkImage [n; 0] []))))
  /\ (forall w h d, dims r = [w; h; d] -> dims g = [w; h; d] -> dims b = [w; h; d] -> 0 < w * h -> (Z.of_nat (w * h) < 2 ^ 64)%Z ->
        construct_command V F load_file save_file sch of_rgb as_plane args st = if is_policy (extract_policy args) then UB else Ok st).
Proof.
  intros Hs Fa (vr & Lr & Ar) (vg & Lg & Ag) (vb & Lb & Ab); unfold construct_command; rewrite Fa; unfold load.
  rewrite Lr, Lg, Lb; cbn [need bind]; rewrite Ar, Ag, Ab; cbn [need bind]; unfold rgb_planes, get_width, get_height, get_dimensionality; split.
  - intros n Dr Dg Db; rewrite Dr, Dg, Db; cbn [length Nat.ltb Nat.leb vget nth_error bind]; rewrite !Nat.eqb_refl; cbn [negb orb].
    rewrite paint_none; [|apply policy_ok, Hs | lia]; cbn [bind caught]; unfold new_image, save; rewrite prodn2, Nat.mul_0_r; reflexivity.
  - intros w h d Dr Dg Db P Fp; rewrite Dr, Dg, Db; cbn [length Nat.ltb Nat.leb vget nth_error bind]; rewrite !Nat.eqb_refl; cbn [negb orb].
    assert (N : forall x y, at_ r [x; y] = Throw RuntimeError) by (intros x y; unfold at_, loc_checked, check_boundary; rewrite Dr; reflexivity).
    pose proof (policy_ok sch Hs (extract_policy args)) as PO; unfold policy_of, paint in *; destruct (is_policy (extract_policy args)).
    + rewrite (for_list_first _ _ _ (Throw RuntimeError)); [reflexivity| |intros i s _; rewrite N; reflexivity|discriminate].
      rewrite wn_fits by exact Fp; intros E; assert (I : In 0 (sch (extract_policy args) (w * h))) by (apply sched1_in; auto); rewrite E in I; destruct I.
    + rewrite (for_list_first _ _ _ (Throw RuntimeError)); [reflexivity| |intros i s _; rewrite N; reflexivity|discriminate].
      intros E; assert (I : In (0, 0) (grid h w)) by (apply in_grid; cbn; nia); rewrite E in I; destruct I.
Qed.
Print Assumptions C132_refuted.
Inductive toy := TPlane (im : image Z) | TRgb (im : image (list Z)) | TSize (z : Z).
Definition toy_plane (v : any toy) : option (image Z) := match snd v with TPlane im => Some im | _ => None end.
Definition toy_st : state toy unit := mkState _ _ [(lit "b", (6, TPlane (mkImage [1; 2] [5; 6]%Z))); (lit "g", (6, TPlane (mkImage [1; 2] [3; 4]%Z))); (lit "r", (6, TPlane (mkImage [1; 2] [1; 2]%Z)))] tt.
Example C132_case : exists st', construct_command toy unit (fun _ _ => None) (fun _ _ _ => None) (fun _ => seq0) (fun o => (0, TRgb o)) toy_plane [lit "$r"; lit "$g"; lit "seq"; lit "$b"; lit "$o"] toy_st = Ok st'
  /\ map_find (lit "o") (vars _ _ st') = Some (0, TRgb (mkImage [1; 2] [[1; 3; 5]; [2; 4; 6]]%Z)).
Proof. eexists; split; reflexivity. Qed.

(** ** C133  subimage *)
Theorem C133_window {V F} load_file save_file sch {A} (d : A) as_image (like : any V -> image A -> any V) args input output xa ya wa ha rest v im w h f x0 y0 sw sh (st : state V F) :
  (forall p, sched1_ok (sch p)) -> args_filter args = input :: output :: xa :: ya :: wa :: ha :: rest ->
  parse_size xa = Ok x0 -> parse_size ya = Ok y0 -> parse_size wa = Ok sw -> parse_size ha = Ok sh ->
  load_arg V F load_file st input = Some v -> as_image v = Some im -> Repr im w h f -> fits w -> fits h -> x0 + sw <= w -> y0 + sh <= h -> fits (sw * sh) ->
  exists o, subimage_command V F load_file save_file sch d as_image like args st = Ok (save_arg V F save_file st output (like v o))
    /\ Repr o sw sh (fun x y => f (x0 + x) (y0 + y)).
Proof.
  intros Hs Fa Px Py Pw Ph Lv Av R Fw Fh Bx By Fp; unfold subimage_command, transform_command; rewrite Fa.
  cbn [length Nat.ltb Nat.leb nth]; rewrite Px, Py, Pw, Ph; cbn [bind]; unfold load; rewrite Lv; cbn [need bind]; rewrite Av; cbn [need bind].
  unfold window; rewrite (get_width_Repr _ _ _ _ R), (get_height_Repr _ _ _ _ R); cbn [bind].
  assert (U : forall a b, fits (a + b) -> uadd a b = a + b) by (intros a b H; unfold uadd; rewrite <- Nat2Z.inj_add; apply wn_fits, H).
  unfold fits in *; rewrite !U by (unfold fits; lia); destruct (Nat.ltb_spec w (x0 + sw)); [lia|]; destruct (Nat.ltb_spec h (y0 + sh)); [lia|]; cbn [orb].
  match goal with |- context [paint ?p sw sh ?g _] => destruct (paint_Repr d p sw sh g (fun x y => f (x0 + x) (y0 + y))) as (o & E & Ro) end.
  - apply policy_ok, Hs.
  - exact Fp.
  - intros x y Hx Hy; rewrite !U by (unfold fits; lia); rewrite (Nat.add_comm x), (Nat.add_comm y); apply (at_Repr _ _ _ _ _ _ R); lia.
  - rewrite E; exists o; split; [reflexivity | exact Ro].
Qed.
Print Assumptions C133_window.
(** a window that is not inside the image: nothing happens, as long as offset plus size fits *)
Theorem C133_outside {V F} load_file save_file sch {A} (d : A) as_image (like : any V -> image A -> any V) args input output xa ya wa ha rest v im w h f x0 y0 sw sh (st : state V F) :
  args_filter args = input :: output :: xa :: ya :: wa :: ha :: rest ->
  parse_size xa = Ok x0 -> parse_size ya = Ok y0 -> parse_size wa = Ok sw -> parse_size ha = Ok sh ->
  load_arg V F load_file st input = Some v -> as_image v = Some im -> Repr im w h f -> fits (x0 + sw) -> fits (y0 + sh) -> w < x0 + sw \/ h < y0 + sh ->
  subimage_command V F load_file save_file sch d as_image like args st = Ok st.
Proof.
  intros Fa Px Py Pw Ph Lv Av R Fw Fh B; unfold subimage_command, transform_command; rewrite Fa.
  cbn [length Nat.ltb Nat.leb nth]; rewrite Px, Py, Pw, Ph; cbn [bind]; unfold load; rewrite Lv; cbn [need bind]; rewrite Av; cbn [need bind].
  unfold window; rewrite (get_width_Repr _ _ _ _ R), (get_height_Repr _ _ _ _ R); cbn [bind].
  assert (U : forall a b, fits (a + b) -> uadd a b = a + b) by (intros a b H; unfold uadd; rewrite <- Nat2Z.inj_add; apply wn_fits, H).
  rewrite !U by assumption; destruct (Nat.ltb_spec w (x0 + sw)), (Nat.ltb_spec h (y0 + sh)); cbn [orb]; try reflexivity; lia.
Qed.
Print Assumptions C133_outside.
(** an offset so large that the sum wraps: the check passes; under a policy the program ends *)
Theorem C133_refuted {V F} load_file save_file sch {A} (d : A) as_image (like : any V -> image A -> any V) (st : state V F) v im f input output :
  (forall p, sched1_ok (sch p)) -> load_arg V F load_file st input = Some v -> as_image v = Some im -> Repr im 1 1 f ->
  is_policy input = false -> is_policy output = false ->
  exists xa ya wa ha, (exists x0 sw, parse_size xa = Ok x0 /\ parse_size wa = Ok sw /\ 1 < x0 + sw) /\
    subimage_command V F load_file save_file sch d as_image like [lit "par"; input; output; xa; ya; wa; ha] st = UB.
Proof.
  intros Hs Lv Av R Ni No; exists (lit "18446744073709551615"), (lit "0"), (lit "2"), (lit "1").
  set (x0 := Z.to_nat 18446744073709551615); assert (Ex : Z.of_nat x0 = 18446744073709551615%Z) by (apply Z2Nat.id; lia).
  assert (P : parse_size (lit "18446744073709551615") = Ok x0).
  { unfold parse_size; replace (parse_int 0 (two64 - 1) (lit "18446744073709551615")) with (@Ok Z 18446744073709551615%Z) by (vm_compute; reflexivity); reflexivity. }
  clearbody x0; split; [exists x0, 2; repeat split; auto; lia|].
  unfold subimage_command, transform_command.
  assert (Fa : args_filter [lit "par"; input; output; lit "18446744073709551615"; lit "0"; lit "2"; lit "1"] = [input; output; lit "18446744073709551615"; lit "0"; lit "2"; lit "1"]).
  { unfold args_filter; cbn [filter]; rewrite Ni, No; reflexivity. }
  rewrite Fa; cbn [length Nat.ltb Nat.leb nth]; rewrite P; change (parse_size (lit "0")) with (@Ok nat 0); change (parse_size (lit "2")) with (@Ok nat 2); change (parse_size (lit "1")) with (@Ok nat 1).
  cbn [bind]; unfold load; rewrite Lv; cbn [need bind]; rewrite Av; cbn [need bind].
  unfold window; rewrite (get_width_Repr _ _ _ _ R), (get_height_Repr _ _ _ _ R); cbn [bind].
  assert (U : uadd x0 2 = 1) by (unfold uadd; rewrite Ex; reflexivity); assert (U0 : uadd 0 x0 = x0) by (unfold uadd, wn, w64; rewrite Ex; cbn -[Z.to_nat]; rewrite <- Ex; apply Nat2Z.id).
  assert (U1 : uadd 1 x0 = 0) by (unfold uadd; rewrite Ex; reflexivity).
  rewrite U; change (uadd 0 1) with 1; cbn [Nat.ltb Nat.leb orb].
  change (extract_policy (lit "par" :: _)) with (lit "par"); unfold policy_of; change (is_policy (lit "par")) with true; cbv iota.
  pose proof (Hs (lit "par")) as HP; set (s := sch (lit "par")) in *; unfold paint; change (wn (Z.of_nat (2 * 1))) with 2.
  assert (A0 : forall out, (let* v := at_ im [uadd (0 mod 2) x0; uadd (0 / 2) 0] in at_set out [0 mod 2; 0 / 2] v) = Throw OutOfRange).
  { intros out; change (0 mod 2) with 0; change (0 / 2) with 0; rewrite U0; change (uadd 0 0) with 0.
    unfold at_, loc_checked, check_boundary; destruct R as (D & _); rewrite D; cbn [length Nat.eqb negb check_bounds_loop].
    destruct (Nat.leb_spec 1 x0); [reflexivity | lia]. }
  assert (H0 : Permutation (s 2) [0; 1]) by apply HP.
  assert (C : s 2 = [0; 1] \/ s 2 = [1; 0]).
  { destruct (s 2) as [|a [|b [|c l]]]; try (apply Permutation_length in H0; cbn in H0; lia).
    apply Permutation_length_2 in H0; destruct H0 as [[-> ->]|[-> ->]]; auto. }
  destruct C as [-> | ->]; cbn [for_list].
  - rewrite A0; reflexivity.
  - change (1 mod 2) with 1; change (1 / 2) with 0; rewrite U1; change (uadd 0 0) with 0; rewrite (at_Repr _ _ _ _ _ _ R) by lia; cbn [bind].
    assert (G : exists o, at_set (new_image d [2; 1]) [1; 0] (f 0 0) = Ok o) by (eexists; reflexivity); destruct G as (o & ->); cbn [bind]; rewrite A0; reflexivity.
Qed.
Print Assumptions C133_refuted.
Example C133_case : subimage_command (image nat) unit (fun _ _ => None) (fun _ _ _ => None) (fun _ => seq0) 0 (fun v => Some (snd v)) (fun v o => (fst v, o))
  [lit "$a"; lit "$b"; lit "1"; lit "0"; lit "unseq"; lit "2"; lit "1"] (mkState _ _ [(lit "a", (6, mkImage [3; 2] [1; 2; 3; 4; 5; 6]))] tt)
  = Ok (mkState _ _ [(lit "a", (6, mkImage [3; 2] [1; 2; 3; 4; 5; 6])); (lit "b", (6, mkImage [2; 1] [2; 3]))] tt).
Proof. reflexivity. Qed.
