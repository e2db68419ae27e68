(** PropFrame.v - predicates over pictures, normalisation, highlighting, generation, borders: C115 to C119. *)
From Coq Require Import Reals Lra ZifyBool ZifyNat.
From Verif Require Import Base ImageModel ImageFacts IndexModel ImageProofs GeomModel GeomProofs PadProofs PixelModel PixelProofs ReduceModel ReduceProofs CubeModel
  OField LinModel FrameModel FrameProofs.
Open Scope nat_scope.
Ltac Zify.zify_post_hook ::= Z.div_mod_to_equations.

(** ** C115 *)
Theorem C115_predicates {A} (im : image A) ds f p : ReprN im ds f ->
  (im_all_of im p = true <-> forall idx, in_range ds idx -> p (f idx) = true) /\
  (im_any_of im p = true <-> exists idx, in_range ds idx /\ p (f idx) = true) /\
  (im_none_of im p = true <-> forall idx, in_range ds idx -> p (f idx) = false).
Proof.
  intros HR; unfold im_all_of, im_any_of, im_none_of; rewrite list_all_spec, list_any_spec, list_none_spec.
  rewrite (ReprN_Forall im ds f (fun a => p a = true) HR), (ReprN_Forall im ds f (fun a => p a = false) HR), (ReprN_Exists im ds f _ HR); tauto.
Qed.
Print Assumptions C115_predicates.

(** the fifteen comparisons with 0 *)
Theorem C115_signs (im : image Z) ds f : ReprN im ds f ->
  let every (P : Z -> Prop) := forall idx, in_range ds idx -> P (f idx) in
  let some (P : Z -> Prop) := exists idx, in_range ds idx /\ P (f idx) in
  ((all_positive im = true <-> every (fun z => 0 < z)%Z) /\ (all_non_negative im = true <-> every (fun z => 0 <= z)%Z) /\
   (all_zero im = true <-> every (fun z => z = 0%Z)) /\ (all_negative im = true <-> every (fun z => z < 0)%Z) /\
   (all_non_positive im = true <-> every (fun z => z <= 0)%Z)) /\
  ((any_positive im = true <-> some (fun z => 0 < z)%Z) /\ (any_non_negative im = true <-> some (fun z => 0 <= z)%Z) /\
   (any_zero im = true <-> some (fun z => z = 0%Z)) /\ (any_negative im = true <-> some (fun z => z < 0)%Z) /\
   (any_non_positive im = true <-> some (fun z => z <= 0)%Z)) /\
  ((none_positive im = true <-> every (fun z => z <= 0)%Z) /\ (none_non_negative im = true <-> every (fun z => z < 0)%Z) /\
   (none_zero im = true <-> every (fun z => z <> 0%Z)) /\ (none_negative im = true <-> every (fun z => 0 <= z)%Z) /\
   (none_non_positive im = true <-> every (fun z => 0 < z)%Z)).
Proof.
  intros HR; cbv zeta.
  assert (L : forall p (P : Z -> Prop), (forall z, p z = true <-> P z) ->
    (im_all_of im p = true <-> forall idx, in_range ds idx -> P (f idx)) /\
    (im_any_of im p = true <-> exists idx, in_range ds idx /\ P (f idx)) /\
    (im_none_of im p = true <-> forall idx, in_range ds idx -> ~ P (f idx))).
  { intros p P HP; destruct (C115_predicates im ds f p HR) as (A & B & C); rewrite A, B, C; repeat split.
    - intros H idx Hi; apply HP; auto.
    - intros H idx Hi; apply HP; auto.
    - intros (idx & Hi & H); exists idx; split; auto; apply HP; auto.
    - intros (idx & Hi & H); exists idx; split; auto; apply HP; auto.
    - intros H idx Hi HQ; apply HP in HQ; rewrite H in HQ by auto; discriminate.
    - intros H idx Hi; specialize (H idx Hi); rewrite <- HP in H; destruct (p (f idx)); congruence. }
  destruct (L positive (fun z => 0 < z)%Z ltac:(unfold positive; lia)) as (A1 & A2 & A3).
  destruct (L non_negative (fun z => 0 <= z)%Z ltac:(unfold non_negative; lia)) as (B1 & B2 & B3).
  destruct (L zero (fun z => z = 0%Z) ltac:(unfold zero; lia)) as (C1 & C2 & C3).
  destruct (L negative (fun z => z < 0)%Z ltac:(unfold negative; lia)) as (D1 & D2 & D3).
  destruct (L non_positive (fun z => z <= 0)%Z ltac:(unfold non_positive; lia)) as (E1 & E2 & E3).
  split; [split; [exact A1 | split; [exact B1 | split; [exact C1 | split; [exact D1 | exact E1]]]]|].
  split; [split; [exact A2 | split; [exact B2 | split; [exact C2 | split; [exact D2 | exact E2]]]]|].
  unfold none_positive, none_non_negative, none_zero, none_negative, none_non_positive; rewrite A3, B3, C3, D3, E3.
  repeat split; intros H idx Hi; specialize (H idx Hi); cbv beta in *; lia.
Qed.
Print Assumptions C115_signs.

(** equal extents: what is_size_same says of matrices *)
Theorem C115_size_same {A B} (x : image A) (y : image B) w h w' h' : dims x = [w; h] -> dims y = [w'; h'] ->
  exists b, is_size_same x y = Ok b /\ (b = true <-> dims x = dims y).
Proof.
  intros Dx Dy; unfold is_size_same, is_width_same, is_height_same, get_width, get_height, get_dimensionality; rewrite Dx, Dy; cbn.
  destruct (Nat.eqb_spec w w') as [->|N]; eexists; split; try reflexivity.
  - rewrite Nat.eqb_eq; split; [intros ->; auto | intros E; injection E; auto].
  - split; [discriminate | intros E; injection E; lia].
Qed.
Print Assumptions C115_size_same.
(** ... while the check that throws compares all extents *)
Theorem C115_check_size {A B} (x : image A) (y : image B) : check_size_same x y = Ok tt <-> dims x = dims y.
Proof. unfold check_size_same; rewrite <- size_eqb_spec; destruct (size_eqb (dims x) (dims y)); split; auto; discriminate. Qed.
Print Assumptions C115_check_size.
Theorem C115_refuted : exists x y : image Z, wf x /\ wf y /\ is_size_same x y = Ok true /\ check_size_same x y = Throw RuntimeError.
Proof. exists (mkImage [1; 1; 2] [1; 2]%Z), (mkImage [1; 1; 1] [1]%Z); repeat split; reflexivity. Qed.
Print Assumptions C115_refuted.
Example C115_case : let im := mkImage [2; 2] [3; -1; 0; 2]%Z in
  all_non_negative im = false /\ any_zero im = true /\ none_negative im = false /\ none_positive (mkImage [2] [0; -5]%Z) = true.
Proof. repeat split; reflexivity. Qed.

(** ** C116 *)
Definition rlt (a b : R) : bool := if Rlt_dec a b then true else false.
Lemma rlt_true a b : rlt a b = true <-> (a < b)%R.
Proof. unfold rlt; destruct (Rlt_dec a b); split; auto; discriminate. Qed.
Lemma rlt_false a b : rlt a b = false <-> (b <= a)%R.
Proof. unfold rlt; destruct (Rlt_dec a b); split; auto; try discriminate; try lra. Qed.
Lemma prodn_nil {A} (im : image A) ds f : ReprN im ds f -> 0 < prodn ds -> pix im <> [].
Proof. intros (_ & L & _) P E; rewrite E in L; cbn in L; lia. Qed.
Lemma set_all_ReprN {A} (im : image A) ds f v : ReprN im ds f -> ReprN (set_all_value im v) ds (fun _ => v).
Proof.
  intros (D & L & H); unfold set_all_value; repeat split; cbn [dims pix]; auto; [rewrite map_length; auto|].
  intros idx Hi; rewrite nth_error_map, (H idx Hi); reflexivity.
Qed.
Lemma normalize_any {A} (lt : A -> A -> bool) sub div im ds f : ReprN im ds f -> 0 < prodn ds ->
  (forall a, lt a a = false) -> (forall a b c, lt a b = true -> lt b c = true -> lt a c = true) ->
  exists lo hi, (exists i, in_range ds i /\ f i = lo) /\ (exists i, in_range ds i /\ f i = hi) /\
    (forall i, in_range ds i -> lt (f i) lo = false /\ lt hi (f i) = false) /\
    exists o, normalize lt sub div im = Ok o /\ ReprN o ds (fun i => div (sub (f i) lo) (sub hi lo)).
Proof.
  intros HR P O1 O2; pose proof (prodn_nil im ds f HR P) as N; unfold normalize, im_max, im_min.
  destruct (vmax_ok lt O1 O2 (pix im) N) as (hi & E1 & I1 & H1); destruct (vmin_ok lt O1 O2 (pix im) N) as (lo & E2 & I2 & H2).
  rewrite E1, E2; cbn [bind]; exists lo, hi.
  assert (IN : forall a, In a (pix im) -> exists i, in_range ds i /\ f i = a).
  { intros a Ha; apply (ReprN_Exists im ds f (fun b => b = a) HR); apply Exists_exists; exists a; auto. }
  split; [auto|]; split; [auto|]; split.
  { intros i Hi; assert (In (f i) (pix im)) by (destruct HR as (_ & _ & H); eapply nth_error_In; eauto); auto. }
  pose proof (set_all_ReprN im ds f lo HR) as RL; pose proof (set_all_ReprN im ds f hi HR) as RH.
  assert (SZ : forall x y : image A, dims x = ds -> dims y = ds -> check_size_same x y = Ok tt) by (intros x y Dx Dy; apply C115_check_size; congruence).
  unfold subtract; rewrite (SZ _ _ (proj1 RH) (proj1 RL)); cbn [bind].
  destruct (pixelwise2_ReprN sub _ _ _ _ _ RH RL P) as (d & -> & Rd); cbn [bind].
  rewrite (SZ _ _ (proj1 HR) (proj1 RL)); cbn [bind].
  destruct (pixelwise2_ReprN sub _ _ _ _ _ HR RL P) as (l & -> & Rl); cbn [bind].
  unfold divides; destruct (pixelwise2_ReprN div _ _ _ _ _ Rl Rd P) as (o & -> & Ro); exists o; split; auto.
Qed.
(** the real case *)
Theorem C116_normalize im ds f : ReprN im ds f -> 0 < prodn ds -> (exists i j, in_range ds i /\ in_range ds j /\ f i <> f j) ->
  exists lo hi o, (lo < hi)%R /\ (exists i, in_range ds i /\ f i = lo) /\ (exists i, in_range ds i /\ f i = hi) /\
    (forall i, in_range ds i -> lo <= f i <= hi)%R /\
    normalize rlt Rminus Rdiv im = Ok o /\ ReprN o ds (fun i => ((f i - lo) / (hi - lo))%R).
Proof.
  intros HR P (i & j & Hi & Hj & Nij).
  destruct (normalize_any rlt Rminus Rdiv im ds f HR P) as (lo & hi & (a & Ha & Ea) & (b & Hb & Eb) & B & o & E & Ro).
  - intros; apply rlt_false; lra.
  - intros x y z H1 H2; apply rlt_true in H1; apply rlt_true in H2; apply rlt_true; lra.
  - exists lo, hi, o.
    assert (BB : forall k, in_range ds k -> (lo <= f k <= hi)%R).
    { intros k Hk; destruct (B k Hk) as (B1 & B2); apply rlt_false in B1; apply rlt_false in B2; lra. }
    split; [|split; [exists a; auto|]; split; [exists b; auto|]; split; auto].
    pose proof (BB i Hi); pose proof (BB j Hj); destruct (Rtotal_order (f i) (f j)) as [|[|]]; lra.
Qed.
Print Assumptions C116_normalize.

(** every value is between 0 and 1, both are reached, the order is kept, and normalising again or changing brightness and contrast
    beforehand changes nothing *)
Theorem C116_unit im ds f o : ReprN im ds f -> 0 < prodn ds -> (exists i j, in_range ds i /\ in_range ds j /\ f i <> f j) ->
  normalize rlt Rminus Rdiv im = Ok o ->
  exists g, ReprN o ds g /\ (forall i, in_range ds i -> 0 <= g i <= 1)%R /\
    (exists i, in_range ds i /\ g i = 0%R) /\ (exists i, in_range ds i /\ g i = 1%R) /\
    (forall i j, in_range ds i -> in_range ds j -> (g i < g j <-> f i < f j)%R) /\
    normalize rlt Rminus Rdiv o = Ok o /\
    (forall im' a b, (0 < a)%R -> ReprN im' ds (fun i => a * f i + b)%R -> normalize rlt Rminus Rdiv im' = Ok o).
Proof.
  intros HR P NC HO; destruct (C116_normalize im ds f HR P NC) as (lo & hi & o' & L & (i0 & H0 & E0) & (i1 & H1 & E1) & B & E & Ro).
  rewrite HO in E; injection E as <-.
  assert (Pd : (0 < / (hi - lo))%R) by (apply Rinv_0_lt_compat; lra).
  exists (fun i => ((f i - lo) / (hi - lo))%R); split; auto.
  assert (AFF : forall im' a b, (0 < a)%R -> ReprN im' ds (fun i => a * f i + b)%R -> normalize rlt Rminus Rdiv im' = Ok o).
  { intros im' a b Pa HR'.
    destruct (C116_normalize im' ds _ HR' P) as (lo' & hi' & o' & L' & (j0 & J0 & F0) & (j1 & J1 & F1) & B' & E' & Ro').
    { exists i0, i1; split; auto; split; auto; rewrite E0, E1; nra. }
    rewrite E'; f_equal; apply (ReprN_unique _ _ _ _ _ Ro' Ro); intros k Hk; cbv beta.
    assert (lo' = a * lo + b)%R as ->.
    { pose proof (B' i0 H0) as Q; pose proof (B j0 J0) as Q'; cbv beta in Q; rewrite E0 in Q; rewrite <- F0 in *; nra. }
    assert (hi' = a * hi + b)%R as ->.
    { pose proof (B' i1 H1) as Q; pose proof (B j1 J1) as Q'; cbv beta in Q; rewrite E1 in Q; rewrite <- F1 in *; nra. }
    field; lra. }
  split; [|split; [|split; [|split; [|split; [|exact AFF]]]]].
  - intros i Hi; specialize (B i Hi); split.
    + unfold Rdiv; apply Rmult_le_pos; lra.
    + apply (Rmult_le_reg_r (hi - lo)); [lra|]; unfold Rdiv; rewrite Rmult_assoc, Rinv_l by lra; lra.
  - exists i0; split; auto; rewrite E0; unfold Rdiv; ring.
  - exists i1; split; auto; rewrite E1; field; lra.
  - intros i j Hi Hj; unfold Rdiv; split; intros Q; [apply Rmult_lt_reg_r in Q; lra | apply Rmult_lt_compat_r; lra].
  - apply (AFF o (/ (hi - lo))%R (- lo / (hi - lo))%R); auto; eapply ReprN_ext; [exact Ro|]; intros k Hk; cbv beta; field; lra.
Qed.
Print Assumptions C116_unit.

(** a flat picture: 0 / 0 everywhere.  [None] is the value that is not a number *)
Definition osub (a b : option R) : option R := match a, b with Some x, Some y => Some (x - y)%R | _, _ => None end.
Definition odiv (a b : option R) : option R := match a, b with Some x, Some y => if Req_EM_T y 0 then None else Some (x / y)%R | _, _ => None end.
Definition olt (a b : option R) : bool := match a, b with Some x, Some y => rlt x y | _, _ => false end.
Theorem C116_flat im ds v : ReprN im ds (fun _ => Some v) -> 0 < prodn ds ->
  exists o, normalize olt osub odiv im = Ok o /\ ReprN o ds (fun _ => None).
Proof.
  intros HR P; destruct (normalize_any olt osub odiv im ds _ HR P) as (lo & hi & (a & Ha & <-) & (b & Hb & <-) & _ & o & E & Ro).
  - intros [x|]; cbn; auto; apply rlt_false; lra.
  - intros [x|] [y|] [z|]; cbn; try discriminate; auto; intros H1 H2; apply rlt_true in H1; apply rlt_true in H2; apply rlt_true; lra.
  - exists o; split; auto; eapply ReprN_ext; [exact Ro|]; intros k Hk; cbn; destruct (Req_EM_T (v - v) 0); auto; lra.
Qed.
Print Assumptions C116_flat.
Theorem C116_refuted : exists im : image (option R), wf im /\ pix im <> [] /\ Forall (fun a => a <> None) (pix im) /\
  exists o, normalize olt osub odiv im = Ok o /\ Forall (fun a => a = None) (pix o).
Proof.
  exists (mkImage [2; 1] [Some 3%R; Some 3%R]); split; [reflexivity|]; split; [discriminate|]; split; [repeat constructor; discriminate|].
  destruct (C116_flat (mkImage [2; 1] [Some 3%R; Some 3%R]) [2; 1] 3%R) as (o & E & Ro).
  - split; [reflexivity|]; split; [reflexivity|]; intros idx Hi; inversion Hi as [|x d idx' ds' H1 H2]; subst.
    inversion H2 as [|y d' idx'' ds'' H3 H4]; subst; inversion H4; subst; destruct x as [|[|x]]; destruct y as [|y]; try lia; reflexivity.
  - cbn; lia.
  - exists o; split; auto; apply (ReprN_Forall o _ _ _ Ro); auto.
Qed.
Print Assumptions C116_refuted.
Example C116_case : exists o, normalize rlt Rminus Rdiv (mkImage [3] [2; 6; 4]%R) = Ok o /\ ReprN o [3] (fun i => match i with [0] => 0 | [1] => 1 | _ => / 2 end)%R.
Proof.
  set (f := fun i => match i with [0] => 2%R | [1] => 6%R | _ => 4%R end).
  assert (HR : ReprN (mkImage [3] [2; 6; 4]%R) [3] f).
  { split; [reflexivity|]; split; [reflexivity|]; intros idx Hi; inversion Hi as [|x d idx' ds' H1 H2]; subst; inversion H2; subst.
    destruct x as [|[|[|x]]]; try lia; reflexivity. }
  destruct (C116_normalize _ _ _ HR ltac:(cbn; lia)) as (lo & hi & o & L & (i & Hi & E0) & (j & Hj & E1) & B & E & Ro).
  { exists [0], [1]; repeat split; try (repeat constructor; lia); cbn; lra. }
  exists o; split; auto.
  pose proof (B [0] ltac:(repeat constructor; lia)); pose proof (B [1] ltac:(repeat constructor; lia)); cbn in *.
  assert (V : forall k, (f k = 2 \/ f k = 6 \/ f k = 4)%R) by (intros [|[|[|k]] [|]]; cbn; auto).
  assert (lo = 2%R) by (destruct (V i) as [|[|]]; lra); assert (hi = 6%R) by (destruct (V j) as [|[|]]; lra); subst lo hi.
  eapply ReprN_ext; [exact Ro|]; intros idx Hx; inversion Hx as [|x d idx' ds' G1 G2]; subst; inversion G2; subst.
  destruct x as [|[|[|x]]]; try lia; cbv beta; rewrite H1, H2; cbn; field; lra.
Qed.

(** ** C117 *)
(** the frame: inside the rectangle enlarged by half the width, outside the one reduced by the width *)
Definition framed (startx endx starty endy width x y : nat) : Prop :=
  startx <= x + width / 2 /\ x < endx + width / 2 /\ starty <= y + width / 2 /\ y < endy + width / 2 /\
  ~ (startx + width <= x /\ x + width <= endx /\ starty + width <= y /\ y + width <= endy).
Definition framedb (startx endx starty endy width x y : nat) : bool :=
  (startx <=? x + width / 2) && (x <? endx + width / 2) && (starty <=? y + width / 2) && (y <? endy + width / 2) &&
  negb ((startx + width <=? x) && (x + width <=? endx) && (starty + width <=? y) && (y + width <=? endy)).
Lemma framedb_spec a b c e k x y : framedb a b c e k x y = true <-> framed a b c e k x y.
Proof. unfold framedb, framed; lia. Qed.
Lemma marked_spec startx endx starty endy width x y :
  (Z.of_nat (endx + width) < 2 ^ 31)%Z -> (Z.of_nat (endy + width) < 2 ^ 31)%Z -> startx <= endx -> starty <= endy ->
  width / 2 <= startx -> width / 2 <= starty ->
  startx - width / 2 <= x < endx + width / 2 -> starty - width / 2 <= y < endy + width / 2 ->
  (let* c := near x startx width in
   if c then Ok true else
   let* c := near x endx width in
   if c then Ok true else
   let* c := near y starty width in
   if c then Ok true else near y endy width) = Ok (framedb startx endx starty endy width x y).
Proof.
  intros B1 B2 L1 L2 K1 K2 X Y; rewrite !near_spec by lia; cbn [bind].
  assert (E : forall a b c d : bool, (if a then Ok true else if b then Ok true else if c then Ok true else Ok d) = Ok (a || b || c || d)) by (intros [] [] [] []; auto).
  rewrite E; f_equal; unfold framedb; lia.
Qed.
Lemma highlight_spans startx endx starty endy width :
  (Z.of_nat (endx + width) < 2 ^ 31)%Z -> (Z.of_nat (endy + width) < 2 ^ 31)%Z -> startx <= endx -> starty <= endy ->
  width / 2 <= startx -> width / 2 <= starty ->
  usub startx (width / 2) = startx - width / 2 /\ usub starty (width / 2) = starty - width / 2.
Proof. intros B1 B2 L1 L2 K1 K2; split; apply usub_le; unfold fits, two64; lia. Qed.
Lemma uadd_low a width : (Z.of_nat (a + width) < 2 ^ 31)%Z -> uadd a (width / 2) = a + width / 2.
Proof. intros B; apply uadd_fits; unfold fits, two64; lia. Qed.

Theorem C117_inside im w h f startx endx starty endy width colour : Repr im w h f ->
  (Z.of_nat (endx + width) < 2 ^ 31)%Z -> (Z.of_nat (endy + width) < 2 ^ 31)%Z -> startx <= endx -> starty <= endy ->
  width / 2 <= startx -> width / 2 <= starty -> endx + width / 2 <= w -> endy + width / 2 <= h ->
  exists o g, highlight_region im startx endx starty endy width colour = Ok o /\ Repr o w h g /\
    forall x y, x < w -> y < h ->
      (framed startx endx starty endy width x y -> g x y = colour) /\ (~ framed startx endx starty endy width x y -> g x y = f x y).
Proof.
  intros HR B1 B2 L1 L2 K1 K2 W H; unfold highlight_region.
  rewrite (proj2 (Nat.leb_le _ _) L1), (proj2 (Nat.leb_le _ _) L2); cbn [andb].
  destruct (highlight_spans startx endx starty endy width) as (-> & ->); auto; rewrite !uadd_low by auto.
  rewrite for_list_nested.
  set (g := fun x y => if framedb startx endx starty endy width x y then Some colour else None).
  match goal with |- context [for_list ?l ?b im] =>
    destruct (overlay_some l b snd fst w h g) with (im := im) (f := f) as (o & E & Ro); auto end.
  - intros (y, x) s Hi Hd Hl; apply in_pairs in Hi; destruct Hi as (Hy & Hx); rewrite in_span in Hx, Hy; cbn [fst snd] in *.
    rewrite marked_spec by auto; cbn [bind]; unfold g; destruct (framedb _ _ _ _ _ x y); auto; apply at_set2_ok with (h := h); auto; lia.
  - intros (y, x) Hi Hg; apply in_pairs in Hi; destruct Hi as (Hy & Hx); rewrite in_span in Hx, Hy; cbn [fst snd] in *; lia.
  - intros x y Hx Hy Hg; unfold g in Hg; destruct (framedb _ _ _ _ _ x y) eqn:Q; [|congruence]; apply framedb_spec in Q; unfold framed in Q.
    exists (y, x); split; auto; apply in_pairs; cbn [fst snd]; rewrite !in_span; lia.
  - exists o; eexists; split; [exact E|]; split; [exact Ro|]; intros x y Hx Hy; cbv beta; unfold g; rewrite <- framedb_spec.
    destruct (framedb _ _ _ _ _ x y); split; auto; congruence.
Qed.
Print Assumptions C117_inside.

(** nearer to the left or top border than half the width: nothing is highlighted *)
Theorem C117_border im startx endx starty endy width colour :
  (Z.of_nat (endx + width) < 2 ^ 31)%Z -> (Z.of_nat (endy + width) < 2 ^ 31)%Z -> startx <= endx -> starty <= endy ->
  (startx < width / 2 \/ starty < width / 2) -> highlight_region im startx endx starty endy width colour = Ok im.
Proof.
  intros B1 B2 L1 L2 K; unfold highlight_region.
  rewrite (proj2 (Nat.leb_le _ _) L1), (proj2 (Nat.leb_le _ _) L2); cbn [andb]; rewrite !uadd_low by auto.
  destruct (Nat.lt_ge_cases starty (width / 2)) as [Q|Q].
  - rewrite (span_wrapped starty) by lia; reflexivity.
  - apply for_list_id; intros y _; rewrite (span_wrapped startx) by lia; reflexivity.
Qed.
Print Assumptions C117_border.

(** past the right or bottom border: an exception *)
Theorem C117_outside im w h startx endx starty endy width colour : dims im = [w; h] -> wf im ->
  (Z.of_nat (endx + width) < 2 ^ 31)%Z -> (Z.of_nat (endy + width) < 2 ^ 31)%Z -> startx <= endx -> starty <= endy ->
  width / 2 <= startx -> width / 2 <= starty -> 0 < width ->
  startx < endx + 2 * (width / 2) -> starty < endy + 2 * (width / 2) ->
  (w < endx + width / 2 \/ h < endy + width / 2) ->
  highlight_region im startx endx starty endy width colour = Throw OutOfRange.
Proof.
  intros D Wf B1 B2 L1 L2 K1 K2 P N1 N2 O; unfold highlight_region.
  rewrite (proj2 (Nat.leb_le _ _) L1), (proj2 (Nat.leb_le _ _) L2); cbn [andb].
  destruct (highlight_spans startx endx starty endy width) as (-> & ->); auto; rewrite !uadd_low by auto.
  rewrite for_list_nested.
  assert (IR : forall x y, in_range [w; h] [x; y] <-> x < w /\ y < h).
  { intros x y; split; [intros Q; inversion Q as [|? ? ? ? ? Q2]; subst; inversion Q2; subst; auto | intros (? & ?); repeat constructor; auto]. }
  set (p := if w <? endx + width / 2 then (starty - width / 2, endx + width / 2 - 1) else (endy + width / 2 - 1, startx - width / 2)).
  apply (for_list_fails (fun s => dims s = [w; h] /\ wf s)) with (i0 := p); auto.
  - intros (y, x) s Hi (Ds & Ws); apply in_pairs in Hi; destruct Hi as (Hy & Hx); rewrite in_span in Hx, Hy; cbn [fst snd] in *.
    rewrite marked_spec by auto; cbn [bind]; destruct (framedb _ _ _ _ _ x y); [|right; eauto].
    destruct (at_set_total s [x; y] colour Ws) as (A & _ & C); rewrite Ds in *.
    destruct (in_range_dec [w; h] [x; y]) as [Q|Q]; [right|left; auto].
    destruct (A Q) as (s' & E & D' & W' & _); exists s'; repeat split; auto; congruence.
  - unfold p; destruct (w <? _); apply in_pairs; cbn [fst snd]; rewrite !in_span; lia.
  - intros s (Ds & Ws); unfold p; destruct (Nat.ltb_spec w (endx + width / 2)) as [Q|Q]; cbn [fst snd];
      rewrite marked_spec by (auto; lia); cbn [bind]; rewrite (proj2 (framedb_spec _ _ _ _ _ _ _)) by (unfold framed; lia);
      apply (at_set_total s _ colour Ws); rewrite Ds; auto; rewrite IR; lia.
Qed.
Print Assumptions C117_outside.

(** a region touching the left border is not highlighted *)
Theorem C117_refuted : exists im startx endx starty endy colour, wf im /\ dims im = [8; 8] /\
  startx < endx /\ starty < endy /\ endx < 8 /\ endy < 8 /\ ~ In colour (pix im) /\
  highlight_region im startx endx starty endy 5 colour = Ok im.
Proof.
  exists (mkImage [8; 8] (repeat [0; 0; 0]%Z 64)), 0, 5, 3, 5, [223; 0; 34]%Z.
  do 6 (split; [first [reflexivity | lia]|]); split; [intros Q; apply repeat_spec in Q; discriminate | reflexivity].
Qed.
Print Assumptions C117_refuted.
Example C117_case : exists o, highlight_region (mkImage [6; 5] (repeat [0; 0; 0]%Z 30)) 1 5 1 4 1 [223; 0; 34]%Z = Ok o /\
  nth_error (pix o) (1 * 6 + 1) = Some [223; 0; 34]%Z /\ nth_error (pix o) (2 * 6 + 1) = Some [223; 0; 34]%Z /\
  nth_error (pix o) (2 * 6 + 2) = Some [0; 0; 0]%Z /\ nth_error (pix o) 0 = Some [0; 0; 0]%Z.
Proof. eexists; split; [reflexivity|]; repeat split; reflexivity. Qed.

(** ** C118 *)
Theorem C118_generate {S A} (gen : S -> A * S) s sizes : 0 < prodn sizes -> (Z.of_nat (prodn sizes) < 2 ^ 31)%Z ->
  exists o, generate gen s sizes = Ok o /\ ReprN o sizes (fun idx => nth_call gen (off sizes idx) s).
Proof.
  intros P B; unfold generate; rewrite reduce_int_ok by lia; cbn [bind]; rewrite Z.mul_1_l; destruct (Z.ltb_spec (Z.of_nat (prodn sizes)) 0); [lia|].
  rewrite Nat2Z.id; pose proof (produce_length gen (prodn sizes) s) as L.
  destruct (produce gen (prodn sizes) s) as [|a l] eqn:E; [cbn in L; lia|]; rewrite L, wn_of_nat by (unfold fits, two64; lia); rewrite Nat.eqb_refl; cbn [negb].
  eexists; split; [reflexivity|]; split; [reflexivity|]; split; [exact L|]; intros idx Hi; cbn [pix]; rewrite <- E.
  apply produce_nth, off_lt; auto.
Qed.
Print Assumptions C118_generate.
Theorem C118_rejects {S A} (gen : S -> A * S) s sizes : fits (prodn sizes) -> (prodn sizes = 0 \/ (2 ^ 31 <= Z.of_nat (prodn sizes))%Z) ->
  generate gen s sizes = Throw RuntimeError \/ generate gen s sizes = Throw LogicError \/ (4 <= length sizes /\ generate gen s sizes = UB).
Proof.
  intros Fi P; unfold generate; destruct (reduce_int_cases sizes 1 1) as [[E L] | E]; [exists 0%Z; ring | lia | |]; rewrite E; cbn [bind]; [auto|].
  rewrite Z.mul_1_l; pose proof (to_int32_range (Z.of_nat (prodn sizes))) as B.
  destruct (Z.ltb_spec (to_int32 (Z.of_nat (prodn sizes))) 0); [auto|]; left.
  pose proof (produce_length gen (Z.to_nat (to_int32 (Z.of_nat (prodn sizes)))) s) as L; rewrite wn_of_nat by exact Fi.
  destruct (produce gen _ s) as [|a l]; auto; rewrite L; destruct (Nat.eqb_spec (Z.to_nat (to_int32 (Z.of_nat (prodn sizes)))) (prodn sizes)) as [Q|Q]; auto.
  exfalso; cbn in L; destruct P as [P|P]; [|lia]; rewrite P in *; cbn in *; lia.
Qed.
Print Assumptions C118_rejects.
(** Which of the two: with at most three extents, std::length_error (a std::logic_error) exactly when the product modulo
    2^32 is 2^31 or more, that is a negative int. *)
Theorem C118_exception {S A} (gen : S -> A * S) s sizes : fits (prodn sizes) -> length sizes <= 3 -> (prodn sizes = 0 \/ (2 ^ 31 <= Z.of_nat (prodn sizes))%Z) ->
  generate gen s sizes = Throw (if (2 ^ 31 <=? Z.of_nat (prodn sizes) mod 2 ^ 32)%Z then LogicError else RuntimeError).
Proof.
  intros Fi L3 P. destruct (C118_rejects gen s sizes Fi P) as [R | [R | [L _]]]; [| | lia];
    unfold generate in R; (destruct (reduce_int_cases sizes 1 1) as [[E L] | E]; [exists 0%Z; ring | lia | lia |]); unfold generate; rewrite E in *; cbn [bind] in *;
    rewrite Z.mul_1_l in *; set (n := Z.of_nat (prodn sizes)) in *; unfold to_int32 in *; change (2 ^ 32)%Z with 4294967296%Z in *; change (2 ^ 31)%Z with 2147483648%Z in *.
  all: pose proof (Z.mod_pos_bound n 4294967296 ltac:(lia)) as B; destruct (Z.leb_spec 2147483648 (n mod 4294967296)) as [G|G].
  all: match goal with R : (if (?c <? 0)%Z then _ else _) = _ |- _ => destruct (Z.ltb_spec c 0) as [C|C] end; try exact R; try reflexivity; exfalso; revert C.
  3: exfalso; destruct (produce _ _ _); [discriminate|]; destruct (negb _); discriminate.
  all: clear - G B; clearbody n; intros C; Z.div_mod_to_equations; lia.
Qed.
Print Assumptions C118_exception.
Theorem C118_refuted {S A} (gen : S -> A * S) s : exists sizes, 0 < prodn sizes /\ (Z.of_nat (prodn sizes) < two64)%Z /\
  forall o, generate gen s sizes <> Ok o.
Proof.
  exists [Z.to_nat 65536; Z.to_nat 65536].
  assert (E : Z.of_nat (prodn [Z.to_nat 65536; Z.to_nat 65536]) = (65536 * 65536)%Z).
  { set (a := Z.to_nat 65536); assert (Z.of_nat a = 65536%Z) by (apply Z2Nat.id; lia); clearbody a.
    unfold prodn; cbn [fold_right]; rewrite Nat.mul_1_r, Nat2Z.inj_mul, H; reflexivity. }
  split; [lia|]; split; [unfold two64; lia|]; intros o Q.
  destruct (C118_rejects gen s [Z.to_nat 65536; Z.to_nat 65536]) as [E' | [E' | [L _]]]; [unfold fits; rewrite E; unfold two64; lia | right; rewrite E; lia | congruence | congruence | cbn in L; lia].
Qed.
Print Assumptions C118_refuted.
(** four extents with a product of ints that overflows *)
Theorem C118_four_refuted {S A} (gen : S -> A * S) s : exists sizes, 0 < prodn sizes /\ fits (prodn sizes) /\ generate gen s sizes = UB.
Proof.
  exists [Z.to_nat 65536; 1; Z.to_nat 65536; 1]; set (a := Z.to_nat 65536); assert (Ha : Z.of_nat a = 65536%Z) by (apply Z2Nat.id; lia).
  assert (E : Z.of_nat (prodn [a; 1; a; 1]) = (65536 * 65536)%Z) by (unfold prodn; cbn [fold_right]; rewrite !Nat2Z.inj_mul, Ha; reflexivity).
  split; [lia|]; split; [unfold fits, two64; lia|]; unfold generate; cbn [reduce_int]; rewrite Ha; reflexivity.
Qed.
Print Assumptions C118_four_refuted.
(** extents whose product does not fit in std::size_t are accepted: a picture with fewer pixels than its extents say *)
Theorem C118_wrap_refuted {S A} (gen : S -> A * S) s : exists sizes o, generate gen s sizes = Ok o /\ dims o = sizes /\ length (pix o) < prodn sizes.
Proof.
  exists [Z.to_nat (2 ^ 63 + 1); 2], (mkImage [Z.to_nat (2 ^ 63 + 1); 2] (produce gen 2 s)).
  set (a := Z.to_nat (2 ^ 63 + 1)); assert (Ha : Z.of_nat a = (2 ^ 63 + 1)%Z) by (apply Z2Nat.id; lia); clearbody a.
  assert (E : prodn [a; 2] = a * 2) by (unfold prodn; cbn [fold_right]; lia).
  split; [|split; [reflexivity | cbn [pix]; rewrite produce_length, E; lia]].
  unfold generate; cbn [reduce_int bind fold_left]; rewrite Ha; change (to_int32 (w64 (w64 (to_int32 (w64 (w64 1 * (2 ^ 63 + 1)))) * Z.of_nat 2))) with 2%Z; change (2 <? 0)%Z with false; cbn [bind].
  change (Z.to_nat 2) with 2; rewrite produce_length; assert (W : wn (Z.of_nat (prodn [a; 2])) = 2) by (rewrite E; unfold wn, w64; rewrite Nat2Z.inj_mul, Ha; reflexivity).
  rewrite W; pose proof (produce_length gen 2 s); destruct (produce gen 2 s); [discriminate | reflexivity].
Qed.
Print Assumptions C118_wrap_refuted.
Example C118_case : generate (fun s => (s * s, s + 1)) 2 [2; 2] = Ok (mkImage [2; 2] [4; 9; 16; 25])
  /\ exists o, generate (fun s => (s, s + 1)) 0 [2; 1; 2; 1; 3] = Ok o /\ pix o = seq 0 12.
Proof. split; [reflexivity | eexists; split; reflexivity]. Qed.

(** ** C119 *)
Theorem C119_border {A} (d : A) im w h f width c : Repr im w h f -> fits (w + 2 * width) -> fits (h + 2 * width) ->
  exists o g, add_border_2d d im width c = Ok o /\ Repr o (w + 2 * width) (h + 2 * width) g /\
    (forall x y, x < w -> y < h -> g (x + width) (y + width) = f x y) /\
    (forall x y, (x < width \/ w + width <= x \/ y < width \/ h + width <= y) -> g x y = c).
Proof.
  intros HR Fw Fh; unfold add_border_2d; rewrite (check2d_Repr _ _ _ _ HR); cbn [bind].
  destruct (constant_padding_Repr d im w h f width width c HR Fw Fh) as (o & E & Ro).
  exists o; eexists; split; [|split; [exact Ro|]].
  - rewrite <- E; unfold constant_padding; rewrite ?(check2d_Repr _ _ _ _ HR); rewrite (get_width_Repr _ _ _ _ HR), (get_height_Repr _ _ _ _ HR); reflexivity.
  - unfold inrect; split; intros x y H.
    + intros Hy; cbv beta; destruct (_ && _) eqn:Q; [f_equal; lia | lia].
    + cbv beta; destruct (_ && _) eqn:Q; auto; lia.
Qed.
Print Assumptions C119_border.
(** cutting the border off again gives the picture back *)
Theorem C119_crop {A} (d : A) sg im w h width c o : sched_ok sg -> wf im -> dims im = [w; h] -> 0 < w -> 0 < h ->
  fits (w + 2 * width) -> fits (h + 2 * width) -> add_border_2d d im width c = Ok o ->
  subimage2 d sg o width (width + w - 1) width (width + h - 1) = Ok im.
Proof.
  intros Hs Wf D Pw Ph Fw Fh E; 
  assert (HR : Repr im w h (fun x y => nth (off [w; h] [x; y]) (pix im) d)).
  { apply Repr_ReprN; pose proof (ReprN_exists d im Wf) as Q; rewrite D in Q; eapply ReprN_ext; [exact Q|]; intros idx Hi.
    inversion Hi as [|x ? ? ? ? Q2]; subst; inversion Q2 as [|y ? ? ? ? Q3]; subst; inversion Q3; reflexivity. }
  set (f := fun x y => nth (off [w; h] [x; y]) (pix im) d) in HR.
  destruct (C119_border d im w h f width c HR Fw Fh) as (o' & g & E' & Ro & G & _); rewrite E in E'; injection E' as <-.
  destruct (subimage2_Repr d sg Hs o _ _ g width (width + w - 1) width (width + h - 1) Ro) as (q & -> & Rq); try lia.
  f_equal; replace (width + w - 1 - width + 1) with w in Rq by lia; replace (width + h - 1 - width + 1) with h in Rq by lia.
  eapply Repr_unique; [exact Rq | exact HR|]; intros x y Hx Hy; cbv beta; rewrite (Nat.add_comm width x), (Nat.add_comm width y); auto.
Qed.
Print Assumptions C119_crop.
Theorem C119_rejects {A} (d : A) im width c : length (dims im) <> 2 -> add_border_2d d im width c = Throw RuntimeError.
Proof. intros H; unfold add_border_2d, check2d, get_dimensionality; destruct (Nat.eqb_spec (length (dims im)) 2); [lia | reflexivity]. Qed.
Print Assumptions C119_rejects.
Example C119_case : add_border_2d 0 (mkImage [2; 1] [5; 6]) 1 9 = Ok (mkImage [4; 3] [9; 9; 9; 9; 9; 5; 6; 9; 9; 9; 9; 9]).
Proof. reflexivity. Qed.
