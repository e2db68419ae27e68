(** ArithProofs.v - lemmas about ArithModel. *)
From Coq Require Import ZifyBool ZifyNat QArith Qround Qabs.
From Verif Require Import Base ImageModel ImageFacts ImageProofs PixelModel PixelProofs ReduceModel ReduceProofs CliModel CliProofs PipeProofs
  CommandModel CommandProofs ArithModel.
Open Scope nat_scope.
Ltac Zify.zify_post_hook ::= Z.div_mod_to_equations.

(** ** conversions *)
Lemma conv_cong t z : (2 <= bits t)%Z -> (conv t z mod 2 ^ bits t = z mod 2 ^ bits t)%Z.
Proof.
  intros B; unfold conv, is_bool; replace (bits t =? 1)%Z with false by (symmetry; apply Z.eqb_neq; lia); cbn [andb].
  pose proof (pow_pos (bits t)); destruct (signed t).
  - rewrite Zminus_mod, Z.mod_mod, <- Zminus_mod by lia; f_equal; lia.
  - rewrite Z.mod_mod; lia.
Qed.
Lemma conv_holds t z : (2 <= bits t)%Z -> holds t (conv t z).
Proof.
  intros B; unfold conv, is_bool, holds, lowest, highest; replace (bits t =? 1)%Z with false by (symmetry; apply Z.eqb_neq; lia); cbn [andb].
  pose proof (pow_half (bits t)); pose proof (pow_pos (bits t - 1)); destruct (signed t).
  - pose proof (Z.mod_pos_bound (z + 2 ^ (bits t - 1)) (2 ^ bits t)); lia.
  - pose proof (Z.mod_pos_bound z (2 ^ bits t)); lia.
Qed.
(** two values of a type that are congruent are equal *)
Lemma holds_cong t u v : (2 <= bits t)%Z -> holds t u -> holds t v -> (u mod 2 ^ bits t = v mod 2 ^ bits t)%Z -> u = v.
Proof.
  intros B Hu Hv E; unfold holds, lowest, highest in *; pose proof (pow_half (bits t)); pose proof (pow_pos (bits t - 1)).
  assert (D : ((u - v) mod 2 ^ bits t = 0)%Z) by (rewrite Zminus_mod, E, Z.sub_diag; apply Z.mod_0_l; lia).
  apply Z.mod_divide in D; [|lia]; destruct D as [k D]; assert (k = 0)%Z; [|subst k; lia].
  assert (M : (- 2 ^ bits t < k * 2 ^ bits t < 2 ^ bits t)%Z) by (destruct (signed t); lia); nia.
Qed.
Lemma conv_back t z : (2 <= bits t)%Z -> holds t z -> forall y, (y mod 2 ^ bits t = z mod 2 ^ bits t)%Z -> conv t y = z.
Proof. intros B H y E; apply (holds_cong t); auto; [apply conv_holds, B | rewrite conv_cong; auto]. Qed.

(** the sum and the difference of two elements are defined *)
Definition easy (t : ity) : Prop := signed t = false \/ (bits t < 32)%Z.
Lemma easy_test t : easy t -> signed t && (32 <=? bits t)%Z = false.
Proof. unfold easy; intros [->|H]; [reflexivity|]; destruct (signed t), (Z.leb_spec 32 (bits t)); cbn; auto; lia. Qed.
Lemma sum_elem_ok t a b : (2 <= bits t)%Z -> easy t \/ holds t (a + b) -> sum_elem t a b = Ok (conv t (a + b)).
Proof.
  intros B H; unfold sum_elem, plus_elem; cbn [bind]; destruct (signed t && (32 <=? bits t)%Z) eqn:E; [|reflexivity].
  destruct H as [H|H]; [rewrite easy_test in E by exact H; discriminate|].
  rewrite conv_id by (auto; lia); unfold holds in H.
  destruct (Z.leb_spec (lowest t) (a + b)), (Z.leb_spec (a + b) (highest t)); cbn; auto; lia.
Qed.
Lemma minus_elem_ok t a b : (2 <= bits t)%Z -> easy t \/ holds t (a - b) -> minus_elem t a b = Ok (conv t (a - b)).
Proof.
  intros B H; unfold minus_elem; destruct (signed t && (32 <=? bits t)%Z) eqn:E; [|reflexivity].
  destruct H as [H|H]; [rewrite easy_test in E by exact H; discriminate|].
  rewrite conv_id by (auto; lia); unfold holds in H.
  destruct (Z.leb_spec (lowest t) (a - b)), (Z.leb_spec (a - b) (highest t)); cbn; auto; lia.
Qed.
Lemma same_ity_refl t : same_ity t t = true.
Proof. unfold same_ity; rewrite Z.eqb_refl, Bool.eqb_reflx; reflexivity. Qed.
Lemma same_ity_eq t u : same_ity t u = true -> t = u.
Proof. unfold same_ity; destruct t as [n s], u as [n' s']; cbn [bits signed]; intros E; apply andb_true_iff in E as [E1 E2]; apply Z.eqb_eq in E1; apply Bool.eqb_prop in E2; congruence. Qed.
Lemma not_bool t : (2 <= bits t)%Z -> is_bool t = false.
Proof. intros B; unfold is_bool; replace (bits t =? 1)%Z with false by (symmetry; apply Z.eqb_neq; lia); reflexivity. Qed.

(** ** two images *)
Lemma size_eqb_same ds : size_eqb ds ds = true.
Proof. apply size_eqb_spec; reflexivity. Qed.
Lemma size_eqb_other a b : a <> b -> size_eqb a b = false.
Proof. intros H; destruct (size_eqb a b) eqn:E; auto; apply size_eqb_spec in E; contradiction. Qed.
Lemma combine_nth_error {A B} : forall (l : list A) (l' : list B) i a b, nth_error l i = Some a -> nth_error l' i = Some b -> nth_error (combine l l') i = Some (a, b).
Proof.
  induction l as [|x l IH]; intros [|y l'] [|i] a b Ha Hb; cbn in *; try discriminate; [congruence|]; apply IH; auto.
Qed.
Lemma image_op_ok {A} (f : A -> A -> res A) (g : A -> A -> A) a b : wf a -> wf b -> dims a = dims b ->
  (forall i x y, nth_error (pix a) i = Some x -> nth_error (pix b) i = Some y -> f x y = Ok (g x y)) ->
  image_op f a b = Ok (mkImage (dims a) (map (fun xy => g (fst xy) (snd xy)) (combine (pix a) (pix b)))).
Proof.
  intros Wa Wb D H; unfold image_op; rewrite <- D, size_eqb_same, (transform2M_spec f g) by exact H.
  rewrite transform2_combine by (unfold wf in *; congruence); reflexivity.
Qed.
Lemma image_op_pix {A B} (g : A -> A -> B) a b i x y : nth_error a i = Some x -> nth_error b i = Some y ->
  nth_error (map (fun xy => g (fst xy) (snd xy)) (combine a b)) i = Some (g x y).
Proof. intros Ha Hb; rewrite nth_error_map, (combine_nth_error _ _ _ _ _ Ha Hb); reflexivity. Qed.
Lemma image_op_wf {A} (g : A * A -> A) a b : wf a -> wf b -> dims a = dims b -> wf (mkImage (dims a) (map g (combine (pix a) (pix b)))).
Proof. unfold wf; cbn [dims pix]; intros Wa Wb D; rewrite map_length, combine_length, Wa, Wb, D; apply Nat.min_id. Qed.
Lemma image_op_other {A} (f : A -> A -> res A) a b : dims a <> dims b -> image_op f a b = Throw RuntimeError.
Proof. intros D; unfold image_op; rewrite size_eqb_other by congruence; reflexivity. Qed.
(** an operation undone by another *)
Lemma image_op_undo {A} (f f' : A -> A -> res A) (g g' : A -> A -> A) a b : wf a -> wf b -> dims a = dims b ->
  (forall i x y, nth_error (pix a) i = Some x -> nth_error (pix b) i = Some y -> f x y = Ok (g x y) /\ f' (g x y) y = Ok (g' (g x y) y) /\ g' (g x y) y = x) ->
  exists o, image_op f a b = Ok o /\ image_op f' o b = Ok a.
Proof.
  intros Wa Wb D H; eexists; split; [apply (image_op_ok f g); auto; intros i x y Hx Hy; apply (H i x y Hx Hy)|].
  rewrite (image_op_ok f' g'); [| apply image_op_wf; auto | exact Wb | exact D |].
  - cbn [dims pix]; transitivity (Ok (mkImage (dims a) (pix a))); [f_equal; f_equal | destruct a; reflexivity].
    unfold wf in *; assert (L : length (pix a) = length (pix b)) by congruence; clear Wa Wb; revert H L.
    generalize (pix b) as q; generalize (pix a) as p; induction p as [|x p IH]; intros [|y q] H L; cbn in *; try lia; auto; f_equal.
    + apply (H 0 x y); reflexivity.
    + apply IH; [|lia]; intros i; apply (H (S i)).
  - cbn [dims pix]; intros i z y Hz Hy; destruct (nth_error (pix a) i) as [x|] eqn:Hx.
    + rewrite (image_op_pix _ _ _ _ _ _ Hx Hy) in Hz; injection Hz as <-; apply (H i x y Hx Hy).
    + exfalso; apply nth_error_None in Hx; assert (i < length (pix b)) by (apply nth_error_Some; congruence); unfold wf in *; rewrite D in Wa; lia.
Qed.
Lemma sum_elem_total t a b : sum_elem t a b = UB \/ exists v, sum_elem t a b = Ok v.
Proof. unfold sum_elem, plus_elem; cbn [bind]; destruct (_ && _); [destruct (_ && _)|]; eauto. Qed.
Lemma minus_elem_total t a b : minus_elem t a b = UB \/ exists v, minus_elem t a b = Ok v.
Proof. unfold minus_elem; destruct (_ && _); [destruct (_ && _)|]; eauto. Qed.

(** ** one image or container *)
Lemma transform_seq_ok {A B} pol (d : B) (f : A -> res B) g l : pol_ok pol -> (forall a, In a l -> f a = Ok (g a)) -> transform_seq pol d f l = Ok (map g l).
Proof.
  intros Hp H; unfold transform_seq; destruct pol as [sc|]; [|apply mapM_ok, H].
  destruct l as [|a0 l0] eqn:El.
  - cbn [length]; rewrite (fill_ok sc 0 d _ (fun _ => d)); [reflexivity | exact Hp | lia].
  - rewrite <- El in *; rewrite (fill_ok sc (length l) d _ (fun i => g (nth i l a0))); [|exact Hp|].
    + f_equal; apply nth_error_ext; intros i; rewrite !nth_error_map; destruct (Nat.lt_ge_cases i (length l)) as [L|L].
      * rewrite nth_error_seq by exact L; cbn [option_map]; rewrite (nth_error_nth' l a0 L); reflexivity.
      * replace (nth_error (seq 0 (length l)) i) with (@None nat) by (symmetry; apply nth_error_None; rewrite seq_length; exact L).
        replace (nth_error l i) with (@None A) by (symmetry; apply nth_error_None; exact L); reflexivity.
    + intros i Hi; rewrite (vget_ok l i (nth i l a0)) by (apply nth_error_nth'; exact Hi); cbn [bind]; apply H, nth_In, Hi.
Qed.
Lemma mapM_UB {A B} (f : A -> res B) l a : (forall x, f x = UB \/ exists v, f x = Ok v) -> In a l -> f a = UB -> mapM f l = UB.
Proof.
  intros T; induction l as [|x l IH]; intros I E; [destruct I|]; cbn [mapM]; destruct (T x) as [Ex|[v Ex]]; rewrite Ex; cbn [bind]; auto.
  destruct I as [->|I]; [congruence|]; rewrite IH; auto.
Qed.
Lemma fill_UB {B} s n (d : B) g k : sched1_ok s -> (forall i, i < n -> g i = UB \/ exists v, g i = Ok v) -> k < n -> g k = UB -> fill s n d g = UB.
Proof.
  intros Hs T Hk E; unfold fill.
  assert (G : forall l out, (forall i, In i l -> i < length out) -> (forall i, In i l -> i < n) -> In k l ->
    for_list l (fun i out => let* v := g i in vset out i v) out = UB).
  { induction l as [|i l IH]; intros out L N I; [destruct I|]; cbn [for_list].
    destruct (T i) as [Ei|[v Ei]]; [apply N; left; auto| |]; rewrite Ei; cbn [bind]; [reflexivity|]; destruct I as [->|I]; [congruence|].
    rewrite vset_ok by (apply L; left; auto); cbn [bind]; apply IH; auto; intros j Hj; [rewrite list_upd_length; apply L | apply N]; right; auto. }
  apply G; [intros i Hi; rewrite repeat_length; apply (sched1_in s); auto | intros i Hi; apply (sched1_in s) in Hi; auto | apply sched1_in; auto].
Qed.
Lemma transform_seq_UB {A B} pol (d : B) (f : A -> res B) l a : pol_ok pol -> (forall x, f x = UB \/ exists v, f x = Ok v) -> In a l -> f a = UB ->
  transform_seq pol d f l = UB.
Proof.
  intros Hp T I E; unfold transform_seq; destruct pol as [sc|]; [|eapply mapM_UB; eauto].
  apply In_nth_error in I as [k Hk]; assert (Lk : k < length l) by (apply nth_error_Some; congruence).
  apply (fill_UB sc _ d _ k); auto.
  - intros i Hi; rewrite (vget_ok l i (nth i l a)) by (apply nth_error_nth'; exact Hi); apply T.
  - rewrite (vget_ok l k a) by exact Hk; exact E.
Qed.
Lemma abs_elem_total t z : abs_elem t z = UB \/ exists v, abs_elem t z = Ok v.
Proof. unfold abs_elem; destruct (signed t); [destruct (_ =? _)%Z|]; eauto. Qed.
Lemma image_data_ok {A} (p : list A) ds : p <> [] -> length p = prodn ds -> image_data p ds = Ok (mkImage ds p).
Proof. intros N L; unfold image_data; destruct p as [|a p]; [congruence|]; rewrite L, Nat.eqb_refl; reflexivity. Qed.

(** ** states *)
Section States.
  Context {V F : Type} (load_file : F -> str -> option (any V)) (save_file : F -> str -> any V -> option F).
  Lemma save_var st a v : dollar a = true -> save_arg V F save_file st a v = mkState V F (ws_store V (tl a) v (vars V F st)) (files V F st).
  Proof. intros D; unfold save_arg; rewrite D; reflexivity. Qed.
  Lemma load_saved st a v : dollar a = true -> load_arg V F load_file (save_arg V F save_file st a v) a = Some v.
  Proof.
    intros D; rewrite save_var by exact D; unfold load_arg; rewrite D; cbn [vars]; unfold ws_store; rewrite find_set.
    replace (eqs (sanitize (tl a)) (sanitize (tl a))) with true by (symmetry; apply eqs_eq; reflexivity); reflexivity.
  Qed.
  Lemma load_other st a v b : dollar a = true -> var_of b <> var_of a ->
    load_arg V F load_file (save_arg V F save_file st a v) b = load_arg V F load_file st b.
  Proof.
    intros D N; rewrite save_var by exact D; unfold load_arg, var_of in *; rewrite D in N; cbn [vars files]; unfold ws_store; cbv zeta.
    destruct (dollar b).
    - rewrite find_set; destruct (eqs (sanitize (tl b)) (sanitize (tl a))) eqn:E; [apply eqs_eq in E; congruence | reflexivity].
    - destruct (dollar (sanitize b)); [|reflexivity]; rewrite find_set.
      destruct (eqs (sanitize (tl (sanitize b))) (sanitize (tl a))) eqn:E; [apply eqs_eq in E; congruence | reflexivity].
  Qed.
End States.
