(** SiftProofs.v - lemmas for the keypoint search and the descriptors. *)
From Coq Require Import Reals Lra ZifyBool ZifyNat Sorted.
From Verif Require Import Base BigSum RSum ImageModel ImageFacts ImageProofs OField LinModel JacobiModel JacobiProofs GeomModel CropProofs
  NestedModel SiftModel.
Open Scope nat_scope.

Lemma rleb_spec x y : rleb x y = true <-> (x <= y)%R.
Proof. unfold rleb; rewrite negb_true_iff; apply rltb_false. Qed.
Lemma rleb_false x y : rleb x y = false <-> (y < x)%R.
Proof. unfold rleb; rewrite negb_false_iff; apply rltb_spec. Qed.
Lemma reqb_spec x y : reqb x y = true <-> x = y.
Proof. unfold reqb; destruct (Req_EM_T x y); split; auto; discriminate. Qed.
Lemma reqb_false x y : reqb x y = false <-> x <> y.
Proof. unfold reqb; destruct (Req_EM_T x y); split; auto; congruence. Qed.

(** ** the patch of 3 x 3 pixels *)
Lemma Repr33_pix {A} (im : image A) f : Repr im 3 3 f ->
  pix im = [f 0 0; f 1 0; f 2 0; f 0 1; f 1 1; f 2 1; f 0 2; f 1 2; f 2 2].
Proof.
  intros (_ & L & H); cbn in L.
  assert (E : pix im = map (fun k => f (k mod 3) (k / 3)) (seq 0 9)).
  { apply nth_error_ext; intros k; destruct (Nat.lt_ge_cases k 9) as [K|K].
    - assert (K' : k = (k / 3) * 3 + k mod 3) by (rewrite Nat.mul_comm; apply Nat.div_mod; lia).
      rewrite K' at 1; rewrite H; [|apply Nat.mod_upper_bound; lia | apply Nat.div_lt_upper_bound; lia].
      erewrite map_nth_error; [reflexivity|]; rewrite nth_error_nth' with (d := 0) by (rewrite seq_length; auto); rewrite seq_nth; auto.
    - rewrite !(proj2 (nth_error_None _ _)); auto; rewrite ?map_length, ?seq_length; lia. }
  rewrite E; reflexivity.
Qed.

Lemma check_3x3_ok im f : Repr im 3 3 f -> check_3x3 im = Ok tt.
Proof.
  intros R; unfold check_3x3; rewrite (get_dim_Repr _ _ _ _ R), (get_width_Repr _ _ _ _ R), (get_height_Repr _ _ _ _ R); reflexivity.
Qed.
Lemma check_3x3_other im : dims im <> [3; 3] -> check_3x3 im = Throw RuntimeError.
Proof.
  intros N; unfold check_3x3, get_dimensionality; destruct (Nat.eqb_spec (length (dims im)) 2) as [E|E]; [|reflexivity]; cbn [negb].
  unfold get_width, get_height, get_dimensionality; destruct (dims im) as [|w [|h [|x l]]] eqn:D; cbn in E; try discriminate; cbn.
  destruct (Nat.eqb_spec w 3) as [->|]; cbn; auto; destruct (Nat.eqb_spec h 3) as [->|]; cbn; auto; elim N; auto.
Qed.

Lemma all_ofM_pure {A} (p : A -> bool) l : all_ofM (fun a => Ok (p a)) l = Ok (forallb p l).
Proof. induction l as [|a l IH]; cbn; auto; destruct (p a); auto. Qed.
Lemma all_of2_pure {A} (p : A -> bool) (l : list (list A)) :
  recursive_all_of (fun i => Ok (p i)) (Ok (A := A)) 2 l = Ok (forallb (forallb p) l).
Proof.
  cbn [recursive_all_of]; induction l as [|a l IH]; cbn; auto.
  cbn [bind]; change (all_ofM (fun value : A => let* v := Ok value in Ok (p v)) a) with (all_ofM (fun v => Ok (p v)) a).
  rewrite all_ofM_pure; cbn [bind]; destruct (forallb p a); auto.
Qed.

(** the 26 pixels around the centre of the middle one of three patches *)
Definition neighbour (k x y : nat) : Prop := k < 3 /\ x < 3 /\ y < 3 /\ ~ (k = 1 /\ x = 1 /\ y = 1).

Lemma is_it_extremum_spec im1 im2 im3 (f : nat -> nat -> nat -> R) threshold :
  Repr im1 3 3 (f 0) -> Repr im2 3 3 (f 1) -> Repr im3 3 3 (f 2) ->
  exists b, is_it_extremum im1 im2 im3 threshold = Ok b /\
    (b = true <-> Rlt threshold (Rabs (f 1 1 1)) /\
       ((forall k x y, neighbour k x y -> Rlt (f k x y) (f 1 1 1)) \/ (forall k x y, neighbour k x y -> Rlt (f 1 1 1) (f k x y)))).
Proof.
  intros R1 R2 R3; unfold is_it_extremum.
  rewrite (check_3x3_ok _ _ R1), (check_3x3_ok _ _ R2), (check_3x3_ok _ _ R3); cbn [bind].
  rewrite (at_Repr _ _ _ _ _ _ R2) by lia; cbn [bind].
  rewrite (Repr33_pix _ _ R1), (Repr33_pix _ _ R2), (Repr33_pix _ _ R3); cbn [erase_at length Nat.ltb Nat.leb firstn skipn app bind].
  set (c := f 1 1 1).
  assert (P : forall Q : R -> bool, forallb (forallb Q)
      [[f 0 0 0; f 0 1 0; f 0 2 0; f 0 0 1; f 0 1 1; f 0 2 1; f 0 0 2; f 0 1 2; f 0 2 2];
       [f 1 0 0; f 1 1 0; f 1 2 0; f 1 0 1; f 1 2 1; f 1 0 2; f 1 1 2; f 1 2 2];
       [f 2 0 0; f 2 1 0; f 2 2 0; f 2 0 1; f 2 1 1; f 2 2 1; f 2 0 2; f 2 1 2; f 2 2 2]] = true <->
      (forall k x y, neighbour k x y -> Q (f k x y) = true)).
  { intros Q; cbn [forallb]; rewrite !andb_true_iff; split.
    - intros H k x y (K & X & Y & N).
      destruct k as [|[|[|]]]; try lia; destruct x as [|[|[|]]]; try lia; destruct y as [|[|[|]]]; try lia; tauto.
    - intros H; repeat split; apply H; unfold neighbour; lia. }
  destruct (rleb (Rabs c) threshold) eqn:T.
  { apply rleb_spec in T; exists false; split; auto; split; [discriminate | intros (T' & _); lra]. }
  apply rleb_false in T; rewrite !all_of2_pure; cbn [bind].
  pose proof (P (fun i => rltb i c)) as P1; pose proof (P (fun i => rltb c i)) as P2; clear P.
  destruct (forallb (forallb (fun i => rltb i c)) _) eqn:E1.
  - exists true; split; auto; split; auto; intros _; split; auto; left; intros k x y N; apply rltb_spec; apply (proj1 P1); auto.
  - eexists; split; [reflexivity|]; rewrite P2; split.
    + intros H; split; auto; right; intros k x y N; apply rltb_spec; auto.
    + intros (_ & [H|H]) k x y N; [|apply rltb_spec; auto].
      assert (false = true) by (apply P1; intros; apply rltb_spec; auto); discriminate.
Qed.

Lemma is_it_extremum_throws im1 im2 im3 threshold : dims im1 <> [3; 3] \/ dims im2 <> [3; 3] \/ dims im3 <> [3; 3] ->
  is_it_extremum im1 im2 im3 threshold = Throw RuntimeError.
Proof.
  intros H; unfold is_it_extremum.
  assert (C : forall im, dims im = [3; 3] -> check_3x3 im = Ok tt) by (intros im E; unfold check_3x3, get_width, get_height, get_dimensionality; rewrite E; reflexivity).
  destruct (list_eq_dec Nat.eq_dec (dims im1) [3; 3]) as [E1|N1]; [rewrite (C _ E1) | rewrite (check_3x3_other _ N1); auto]; cbn [bind].
  destruct (list_eq_dec Nat.eq_dec (dims im2) [3; 3]) as [E2|N2]; [rewrite (C _ E2) | rewrite (check_3x3_other _ N2); auto]; cbn [bind].
  destruct (list_eq_dec Nat.eq_dec (dims im3) [3; 3]) as [E3|N3]; [rewrite (C _ E3) | rewrite (check_3x3_other _ N3); auto]; cbn [bind]; tauto.
Qed.

(** ** derivatives, refinement, filtering *)
Definition gx (f : nat -> nat -> R) : R := ((f 2%nat 1%nat - f 0%nat 1%nat) / 2)%R.
Definition gy (f : nat -> nat -> R) : R := ((f 1%nat 2%nat - f 1%nat 0%nat) / 2)%R.
Definition hxx (f : nat -> nat -> R) : R := (f 2%nat 1%nat + f 0%nat 1%nat - 2 * f 1%nat 1%nat)%R.
Definition hyy (f : nat -> nat -> R) : R := (f 1%nat 2%nat + f 1%nat 0%nat - 2 * f 1%nat 1%nat)%R.
Definition hxy (f : nat -> nat -> R) : R := ((f 2%nat 2%nat - f 2%nat 0%nat - f 0%nat 2%nat + f 0%nat 0%nat) / 4)%R.
Definition hdet f : R := (hxx f * hyy f - hxy f * hxy f)%R.

Lemma derivatives_ok im f : Repr im 3 3 f -> derivatives im = Ok (gx f, gy f, hxx f, hyy f, hxy f).
Proof. intros R; unfold derivatives; rewrite !(at_Repr _ _ _ _ _ _ R) by lia; reflexivity. Qed.

Definition step (f : nat -> nat -> R) : R * R :=
  ((- hxx f / hdet f) * gx f + (hxy f / hdet f) * gy f, (hxy f / hdet f) * gx f + (- hyy f / hdet f) * gy f)%R.
Definition refined (f : nat -> nat -> R) (x y : nat) : option (R * R) :=
  if Req_EM_T (hdet f) 0 then None else Some (INR x + fst (step f), INR y + snd (step f))%R.
Lemma keypoint_refinement_ok im f x y : Repr im 3 3 f -> keypoint_refinement im (x, y) = Ok (refined f x y).
Proof.
  intros R; unfold keypoint_refinement; rewrite (derivatives_ok _ _ R); cbn [bind]; fold (hdet f); unfold refined, reqb.
  destruct (Req_EM_T (hdet f) 0); reflexivity.
Qed.

Lemma step_newton f : hdet f <> 0%R ->
  ((hxx f * fst (step f) + hxy f * snd (step f) = - gx f)%R /\ (hxy f * fst (step f) + hyy f * snd (step f) = - gy f)%R) <->
  (hxx f = hyy f \/ (gx f = 0 /\ gy f = 0))%R.
Proof.
  intros N; unfold step; cbn [fst snd]; set (a := gx f); set (b := gy f); set (p := hxx f); set (q := hyy f); set (r := hxy f).
  assert (N' : (p * q - r * r <> 0)%R) by exact N; change (hdet f) with (p * q - r * r)%R.
  set (u := (- p / (p * q - r * r) * a + r / (p * q - r * r) * b)%R); set (v := (r / (p * q - r * r) * a + - q / (p * q - r * r) * b)%R).
  assert (E1 : (p * u + r * v + a = (p - q) * u)%R) by (unfold u, v; field; auto).
  assert (E2 : (r * u + q * v + b = (q - p) * v)%R) by (unfold u, v; field; auto).
  split.
  - intros (H1 & H2); assert (Z1 : ((p - q) * u = 0)%R) by lra; assert (Z2 : ((q - p) * v = 0)%R) by lra.
    destruct (Req_dec p q) as [|D]; [left; auto|]; right.
    assert (U : u = 0%R) by (apply Rmult_integral in Z1; lra); assert (V : v = 0%R) by (apply Rmult_integral in Z2; lra).
    rewrite U, V in *; lra.
  - intros [H|(Ha & Hb)]; [rewrite <- H in *; lra|].
    assert (U : u = 0%R) by (unfold u; rewrite Ha, Hb; lra); assert (V : v = 0%R) by (unfold v; rewrite Ha, Hb; lra).
    rewrite U, V in *; lra.
Qed.

Lemma keypoint_filtering_ok im f contrast edge : Repr im 3 3 f -> exists b, keypoint_filtering im contrast edge = Ok b /\
  (b = true <-> Rlt contrast (f 1 1) /\
     ((hdet f <> 0 /\ (hxx f + hyy f) * (hxx f + hyy f) / hdet f < edge) \/ (hdet f = 0 /\ hxx f + hyy f = 0))%R).
Proof.
  intros R; unfold keypoint_filtering; rewrite (derivatives_ok _ _ R); cbn [bind]; rewrite (at_Repr _ _ _ _ _ _ R) by lia; cbn [bind].
  fold (hdet f); unfold ratio_at_least; destruct (rleb (f 1 1) contrast) eqn:C; cbn [orb].
  { apply rleb_spec in C; exists false; split; auto; split; [discriminate | intros (H & _); lra]. }
  apply rleb_false in C; destruct (reqb (hdet f) 0) eqn:D.
  - apply reqb_spec in D; destruct (reqb (hxx f + hyy f) 0) eqn:T; cbn [negb].
    + apply reqb_spec in T; exists true; split; auto; split; auto.
    + apply reqb_false in T; exists false; split; auto; split; [discriminate|]; intros (_ & [(H & _)|(_ & H)]); tauto.
  - apply reqb_false in D; destruct (rleb edge _) eqn:T.
    + apply rleb_spec in T; exists false; split; auto; split; [discriminate|]; intros (_ & [(_ & H)|(H & _)]); [lra|tauto].
    + apply rleb_false in T; exists true; split; auto; split; auto.
Qed.

(** ** patches of an image *)
Definition patch (f : nat -> nat -> R) (x y : nat) : nat -> nat -> R := fun a b => f (x - 1 + a) (y - 1 + b).
Lemma subimage_patch im w h f x y : Repr im w h f -> 1 <= x -> S x < w -> 1 <= y -> S y < h ->
  (Z.of_nat w <= 2 ^ 63)%Z -> (Z.of_nat h <= 2 ^ 63)%Z ->
  exists o, subimage 0%R im [3; 3] [x; y] 0%R = Ok o /\ Repr o 3 3 (patch f x y).
Proof.
  intros R X0 X1 Y0 Y1 W H.
  destruct (subimage_Repr 0%R im w h f 3 3 x y 0%R R) as (o & E & Ro); auto; try lia; try (unfold fits, two64; lia).
  exists o; split; auto; eapply Repr_ext; [exact Ro|]; intros a b A B; cbv zeta; unfold crop_pos, patch.
  change (3 / 2) with 1.
  replace (0 <=? Z.of_nat x - Z.of_nat 1 + Z.of_nat a)%Z with true by lia; replace (Z.of_nat x - Z.of_nat 1 + Z.of_nat a <? Z.of_nat w)%Z with true by lia.
  replace (0 <=? Z.of_nat y - Z.of_nat 1 + Z.of_nat b)%Z with true by lia; replace (Z.of_nat y - Z.of_nat 1 + Z.of_nat b <? Z.of_nat h)%Z with true by lia.
  cbn [andb]; f_equal; lia.
Qed.

(** ** extrema of three images *)
Definition extremum_at (F : nat -> nat -> nat -> R) (contrast : R) (x y : nat) : Prop :=
  Rlt contrast (Rabs (F 1 x y)) /\
  ((forall k x' y', k < 3 -> x <= S x' -> x' <= S x -> y <= S y' -> y' <= S y -> ~ (k = 1 /\ x' = x /\ y' = y) -> Rlt (F k x' y') (F 1 x y)) \/
   (forall k x' y', k < 3 -> x <= S x' -> x' <= S x -> y <= S y' -> y' <= S y -> ~ (k = 1 /\ x' = x /\ y' = y) -> Rlt (F 1 x y) (F k x' y'))).
(** the curvature test of keypoint_filtering at a pixel *)
Definition passes_filter (f : nat -> nat -> R) (contrast edge : R) (x y : nat) : Prop :=
  let p := patch f x y in
  Rlt contrast (f x y) /\
  ((hdet p <> 0 /\ (hxx p + hyy p) * (hxx p + hyy p) / hdet p < edge) \/ (hdet p = 0 /\ hxx p + hyy p = 0))%R.
Definition keypoint_at (F : nat -> nat -> nat -> R) (contrast edge : R) (filtering : bool) (x y : nat) : Prop :=
  extremum_at F contrast x y /\ (filtering = true -> passes_filter (F 1) contrast edge x y).
Definition raster_lt (p q : nat * nat) : Prop := fst p < fst q \/ (fst p = fst q /\ snd p < snd q).

Section Extrema.
  Variables (im1 im2 im3 : image R) (w h : nat) (F : nat -> nat -> nat -> R) (contrast edge : R) (filtering : bool).
  Hypotheses (R1 : Repr im1 w h (F 0)) (R2 : Repr im2 w h (F 1)) (R3 : Repr im3 w h (F 2)).
  Hypotheses (BW : (Z.of_nat w <= 2 ^ 63)%Z) (BH : (Z.of_nat h <= 2 ^ 63)%Z).

  (** the decision of the code at a pixel *)
  Definition decide (x y : nat) : res bool :=
    let* sub1 := subimage 0%R im1 [3; 3] [x; y] 0%R in
    let* sub2 := subimage 0%R im2 [3; 3] [x; y] 0%R in
    let* sub3 := subimage 0%R im3 [3; 3] [x; y] 0%R in
    let* extremum := is_it_extremum sub1 sub2 sub3 contrast in
    if filtering then (if extremum then keypoint_filtering sub2 contrast edge else Ok false) else Ok extremum.
  Definition kept (p : nat * nat) : bool := match decide (snd p) (fst p) with Ok b => b | _ => false end.

  Lemma decide_spec x y : 1 <= x -> S x < w -> 1 <= y -> S y < h ->
    exists b, decide x y = Ok b /\ (b = true <-> keypoint_at F contrast edge filtering x y) /\
      exists sub1 sub2 sub3, subimage 0%R im1 [3; 3] [x; y] 0%R = Ok sub1 /\ subimage 0%R im2 [3; 3] [x; y] 0%R = Ok sub2 /\
        subimage 0%R im3 [3; 3] [x; y] 0%R = Ok sub3 /\ Repr sub2 3 3 (patch (F 1) x y).
  Proof using R1 R2 R3 BW BH.
    intros X0 X1 Y0 Y1.
    destruct (subimage_patch im1 w h (F 0) x y) as (s1 & E1 & P1); auto.
    destruct (subimage_patch im2 w h (F 1) x y) as (s2 & E2 & P2); auto.
    destruct (subimage_patch im3 w h (F 2) x y) as (s3 & E3 & P3); auto.
    unfold decide; rewrite E1, E2, E3; cbn [bind].
    destruct (is_it_extremum_spec s1 s2 s3 (fun k => patch (F k) x y) contrast P1 P2 P3) as (b & -> & Hb); cbn [bind].
    assert (C : patch (F 1) x y 1 1 = F 1 x y) by (unfold patch; f_equal; lia).
    assert (EX : b = true <-> extremum_at F contrast x y).
    { rewrite Hb, C; unfold extremum_at.
      assert (G : forall Q : R -> Prop, (forall k a b, neighbour k a b -> Q (patch (F k) x y a b)) <->
        (forall k x' y', k < 3 -> x <= S x' -> x' <= S x -> y <= S y' -> y' <= S y -> ~ (k = 1 /\ x' = x /\ y' = y) -> Q (F k x' y'))).
      { intros Q; split.
        - intros H k x' y' K A A' B B' N; specialize (H k (x' + 1 - x) (y' + 1 - y)); unfold patch in H.
          replace (x - 1 + (x' + 1 - x)) with x' in H by lia; replace (y - 1 + (y' + 1 - y)) with y' in H by lia.
          apply H; unfold neighbour; lia.
        - intros H k a c (K & A & B & N); unfold patch; apply H; lia. }
      rewrite (G (fun v => Rlt v (F 1 x y))), (G (fun v => Rlt (F 1 x y) v)); tauto. }
    exists (if filtering then (if b then match keypoint_filtering s2 contrast edge with Ok r => r | _ => false end else false) else b).
    destruct (keypoint_filtering_ok s2 (patch (F 1) x y) contrast edge P2) as (r & Er & Hr); rewrite C in Hr.
    split; [destruct filtering; auto; destruct b; auto; rewrite Er; auto|].
    split; [|exists s1, s2, s3; auto].
    unfold keypoint_at, passes_filter; rewrite Er; destruct filtering.
    - rewrite <- Hr, <- EX; destruct b; [tauto|]; split; [discriminate | intros (? & _); discriminate].
    - rewrite EX; split; [intros; split; auto; discriminate | tauto].
  Qed.

  Lemma kept_spec x y : 1 <= x -> S x < w -> 1 <= y -> S y < h -> kept (y, x) = true <-> keypoint_at F contrast edge filtering x y.
  Proof using R1 R2 R3 BW BH.
    intros X0 X1 Y0 Y1; unfold kept; cbn [fst snd]; destruct (decide_spec x y) as (b & -> & Hb & _); auto.
  Qed.

  Definition interior : list (nat * nat) := pairs (seq 1 (h - 2)) (fun _ => seq 1 (w - 2)).
  Lemma in_interior p : In p interior <-> 1 <= snd p /\ S (snd p) < w /\ 1 <= fst p /\ S (fst p) < h.
  Proof using. clear; unfold interior; rewrite in_pairs, !in_seq; lia. Qed.

  Lemma extrema_hits_ok oi si : extrema_hits im1 im2 im3 oi si contrast edge filtering (w - 1) (h - 1) =
    Ok (map (fun p => (p, (oi, si, refined (patch (F 1) (snd p) (fst p)) (snd p) (fst p)))) (filter kept interior)).
  Proof using R1 R2 R3 BW BH.
    unfold extrema_hits; rewrite (for_list_nested (seq 1 (h - 1 - 1)) (fun _ => seq 1 (w - 1 - 1))
      (fun y x out => let* sub1 := subimage 0%R im1 [3; 3] [x; y] 0%R in
         let* sub2 := subimage 0%R im2 [3; 3] [x; y] 0%R in
         let* sub3 := subimage 0%R im3 [3; 3] [x; y] 0%R in
         let* extremum := is_it_extremum sub1 sub2 sub3 contrast in
         let* keep := if filtering then (if extremum then keypoint_filtering sub2 contrast edge else Ok false) else Ok extremum in
         if keep then
           let* location := keypoint_refinement sub2 (x, y) in
           Ok (out ++ [(y, x, (oi, si, location))])
         else Ok out)).
    replace (h - 1 - 1) with (h - 2) by lia; replace (w - 1 - 1) with (w - 2) by lia.
    fold interior.
    set (hit := fun p : nat * nat => (p, (oi, si, refined (patch (F 1) (snd p) (fst p)) (snd p) (fst p)) : keypoint)).
    assert (G : forall body l out, (forall p out, In p l -> body p out = Ok (out ++ if kept p then [hit p] else [])) ->
      for_list l body out = Ok (out ++ map hit (filter kept l))).
    { induction l as [|p l IH]; intros out I; [cbn; rewrite app_nil_r; auto|].
      cbn [for_list filter]; rewrite I by (cbn; auto); cbn [bind]; rewrite IH by (intros; apply I; cbn; auto).
      rewrite <- app_assoc; destruct (kept p); reflexivity. }
    rewrite G; auto; intros [y x] out P; apply in_interior in P; cbn [fst snd] in *.
    destruct (decide_spec x y) as (b & Eb & Hb & s1 & s2 & s3 & E1 & E2 & E3 & P2); try tauto.
    unfold kept; cbn [fst snd]; rewrite Eb; unfold decide in Eb; rewrite E1, E2, E3 in *; cbn [bind] in *.
    destruct (is_it_extremum s1 s2 s3 contrast) as [ex| |]; cbn [bind] in *; try discriminate.
    rewrite Eb; cbn [bind]; destruct b; [|rewrite app_nil_r; auto].
    rewrite (keypoint_refinement_ok _ _ x y P2); reflexivity.
  Qed.
End Extrema.

Lemma sorted_app {A} (R : A -> A -> Prop) l m : StronglySorted R l -> StronglySorted R m -> (forall a b, In a l -> In b m -> R a b) ->
  StronglySorted R (l ++ m).
Proof.
  induction 1 as [|a l S IH FA]; intros SM H; cbn; auto; constructor; [apply IH; auto; intros; apply H; cbn; auto|].
  apply Forall_app; split; auto; apply Forall_forall; intros; apply H; cbn; auto.
Qed.
Lemma sorted_seq s n : StronglySorted lt (seq s n).
Proof. revert s; induction n; intros s; cbn; constructor; auto; apply Forall_forall; intros a I; apply in_seq in I; lia. Qed.
Lemma sorted_filter {A} (R : A -> A -> Prop) p l : StronglySorted R l -> StronglySorted R (filter p l).
Proof.
  induction 1 as [|a l S IH FA]; cbn; [constructor|]; destruct (p a); auto; constructor; auto.
  apply Forall_forall; intros b I; apply filter_In in I as (I & _); rewrite Forall_forall in FA; auto.
Qed.
Lemma raster_pairs ys xs : StronglySorted lt ys -> StronglySorted lt xs -> StronglySorted raster_lt (pairs ys (fun _ => xs)).
Proof.
  intros SY SX; unfold pairs; induction SY as [|y ys SY IH FY]; cbn; [constructor|]; apply sorted_app; auto.
  - clear IH; induction SX as [|x l S IHl Fl]; cbn; [constructor|]; constructor; auto; rewrite Forall_forall in *; intros p P; apply in_map_iff in P as (x' & <- & I).
    right; cbn; split; auto.
  - intros p q P Q; apply in_map_iff in P as (x & <- & _); apply in_flat_map in Q as (y' & Iy & Q); apply in_map_iff in Q as (x' & <- & _).
    left; cbn; rewrite Forall_forall in FY; auto.
Qed.

Definition found (oi si : nat) (f : nat -> nat -> R) (p : nat * nat) : keypoint :=
  (oi, si, refined (patch f (snd p) (fst p)) (snd p) (fst p)).
Lemma find_local_extrema_eq owner im1 im2 im3 w h F oi si contrast edge filtering :
  Repr im1 w h (F 0) -> Repr im2 w h (F 1) -> Repr im3 w h (F 2) -> 1 <= w -> 1 <= h ->
  (Z.of_nat w <= 2 ^ 63)%Z -> (Z.of_nat h <= 2 ^ 63)%Z ->
  exists pixels, StronglySorted raster_lt pixels /\
    (forall x y, In (y, x) pixels <-> (1 <= x /\ S x < w /\ 1 <= y /\ S y < h) /\ keypoint_at F contrast edge filtering x y) /\
    find_local_extrema owner im1 im2 im3 oi si contrast edge filtering =
      if one_owner owner pixels then Ok (map (found oi si (F 1)) pixels) else UB.
Proof.
  intros R1 R2 R3 W H BW BH; exists (filter (kept im1 im2 im3 contrast edge filtering) (interior w h)); split; [|split].
  - apply sorted_filter, raster_pairs; apply sorted_seq.
  - intros x y; rewrite filter_In, in_interior; cbn [fst snd]; split.
    + intros (I & K); split; [tauto|]; apply (kept_spec im1 im2 im3 w h F) in K; tauto.
    + intros (I & K); split; [tauto|]; apply (kept_spec im1 im2 im3 w h F); tauto.
  - unfold find_local_extrema; rewrite (get_dim_Repr _ _ _ _ R1), (get_dim_Repr _ _ _ _ R2), (get_dim_Repr _ _ _ _ R3); cbn [Nat.eqb negb].
    pose proof R1 as (D1 & _); pose proof R2 as (D2 & _); pose proof R3 as (D3 & _); rewrite D1, D2, D3.
    destruct (list_eq_dec Nat.eq_dec [w; h] [w; h]) as [_|N]; [|elim N; auto]; cbn [negb].
    rewrite (get_width_Repr _ _ _ _ R1), (get_height_Repr _ _ _ _ R1); cbn [bind].
    rewrite !usub_le by (auto; unfold fits, two64; lia).
    rewrite (extrema_hits_ok im1 im2 im3 w h F contrast edge filtering) by auto; cbn [bind].
    rewrite !map_map; cbn [fst snd]; rewrite map_id; reflexivity.
Qed.

Lemma one_owner_spec owner l : one_owner owner l = true <-> (forall p q, In p l -> In q l -> owner p = owner q).
Proof.
  destruct l as [|p l]; cbn; [split; auto; intros _ ? ? []|]; rewrite forallb_forall; split.
  - intros H a b [<-|A] [<-|B]; auto; try apply H in A; try apply H in B; lia.
  - intros H q Q; apply Nat.eqb_eq, H; auto.
Qed.

(** ** octaves *)
(** an image of the given extents *)
Definition is2d (im : image R) (w h : nat) : Prop := exists f, Repr im w h f.
(** the difference of Gaussians keeps the extents, resampling yields the ones asked for *)
Definition keeps_extents (dog : image R -> R -> R -> res (image R)) (levels : nat) (sigma k : R) (w h : nat) : Prop :=
  forall im index, index < levels - 1 -> is2d im w h ->
  exists o, dog im (sigma * k ^ index)%R (sigma * k ^ (index + 1))%R = Ok o /\ is2d o w h.
(** in every octave that is generated *)
Definition keeps_octaves (dog : image R -> R -> R -> res (image R)) (n levels : nat) (sigma k : R) (w h : nat) : Prop :=
  forall i, i < n -> 20 <= w / 2 ^ i -> 20 <= h / 2 ^ i -> keeps_extents dog levels sigma k (w / 2 ^ i) (h / 2 ^ i).
Definition resamples (resample : image R -> nat -> nat -> res (image R)) (n w h : nat) : Prop :=
  forall i im, i < n -> 20 <= w / 2 ^ i -> 20 <= h / 2 ^ i -> is2d im (w / 2 ^ i) (h / 2 ^ i) ->
  exists o, resample im (w / 2 ^ i / 2) (h / 2 ^ i / 2) = Ok o /\ is2d o (w / 2 ^ i / 2) (h / 2 ^ i / 2).

Lemma is2d_width im w h : is2d im w h -> get_width im = Ok w /\ get_height im = Ok h /\ get_dimensionality im = 2.
Proof. intros (f & R); split; [|split]; [eapply get_width_Repr | eapply get_height_Repr | eapply get_dim_Repr]; eauto. Qed.

Lemma generate_octave_ok dog im w h levels sigma k : keeps_extents dog levels sigma k w h -> is2d im w h ->
  exists o, generate_octave dog im levels sigma k = Ok o /\ length o = levels - 1 /\ Forall (fun i => is2d i w h) o.
Proof.
  intros KE I; unfold generate_octave; destruct (Nat.ltb_spec levels 2); [exists []; repeat split; auto; cbn; lia|].
  assert (G : forall l, (forall i, In i l -> i < levels - 1) ->
    exists o, mapM (fun index => dog im (sigma * k ^ index)%R (sigma * k ^ (index + 1))%R) l = Ok o /\
    length o = length l /\ Forall (fun i => is2d i w h) o).
  { induction l as [|a l IH]; intros B; cbn; [exists []; auto|].
    destruct IH as (o & E & L & A); [intros i Hi; apply B; right; auto|].
    destruct (KE im a (B a (or_introl eq_refl)) I) as (c & -> & Ic); cbn [bind]; rewrite E; cbn [bind].
    exists (c :: o); cbn; repeat split; auto. }
  destruct (G (seq 0 (levels - 1))) as (o & E & L & A); [intros i Hi; apply in_seq in Hi; lia|]; rewrite seq_length in L; exists o; rewrite E; auto.
Qed.

(** how many octaves are generated *)
Fixpoint generated (n w h : nat) : nat :=
  match n with O => 0 | S n' => if (w <? 20) || (h <? 20) then 0 else S (generated n' (w / 2) (h / 2)) end.

Lemma halves a i : a / 2 / 2 ^ i = a / 2 ^ S i.
Proof. cbn [Nat.pow]; rewrite Nat.div_div; auto; apply Nat.pow_nonzero; lia. Qed.

Lemma build_octaves_ok dog resample n levels sigma k : forall base w h,
  resamples resample n w h -> keeps_octaves dog n levels sigma k w h -> is2d base w h ->
  exists octaves, build_octaves dog resample n levels sigma k base = Ok octaves /\ length octaves = generated n w h /\
    forall i o, nth_error octaves i = Some o ->
      length o = levels - 1 /\ Forall (fun im => is2d im (w / 2 ^ i) (h / 2 ^ i)) o /\ 20 <= w / 2 ^ i /\ 20 <= h / 2 ^ i.
Proof.
  induction n as [|n IH]; intros base w h RS KE I; cbn [build_octaves generated].
  { exists []; do 2 (split; [reflexivity|]); intros i o E; destruct i; discriminate E. }
  destruct (is2d_width base w h I) as (-> & -> & _); cbn [bind].
  destruct ((w <? 20) || (h <? 20)) eqn:T; [exists []; do 2 (split; [reflexivity|]); intros i o E; destruct i; discriminate E|].
  destruct (generate_octave_ok dog base w h levels sigma k) as (o & -> & L & A); auto; cbn [bind].
  { specialize (KE 0); cbn [Nat.pow] in KE; rewrite !Nat.div_1_r in KE; apply KE; lia. }
  assert (R0 : exists o, resample base (w / 2) (h / 2) = Ok o /\ is2d o (w / 2) (h / 2)).
  { specialize (RS 0 base); cbn [Nat.pow] in RS; rewrite !Nat.div_1_r in RS; apply RS; auto; lia. }
  destruct R0 as (base' & -> & I'); cbn [bind].
  destruct (IH base' (w / 2) (h / 2)) as (os & -> & LO & HO); auto; cbn [bind].
  { intros i im Hi; rewrite !halves; apply RS; lia. }
  { intros i Hi; rewrite !halves; apply KE; lia. }
  exists (o :: os); cbn [length]; split; auto; split; [lia|].
  intros i o' E; destruct i as [|i]; cbn [nth_error] in E.
  - injection E as <-; cbn [Nat.pow]; rewrite !Nat.div_1_r; repeat split; auto; lia.
  - apply HO in E; cbn [Nat.pow]; rewrite <- !Nat.div_div by (try lia; apply Nat.pow_nonzero; lia); tauto.
Qed.

Lemma generated_le n : forall w h, generated n w h <= n.
Proof. induction n; intros; cbn [generated]; [lia|]; destruct ((w <? 20) || (h <? 20)); [lia|]; specialize (IHn (w / 2) (h / 2)); lia. Qed.
Lemma generated_all n : forall w h, generated n w h = n <-> (forall i, i < n -> 20 <= w / 2 ^ i /\ 20 <= h / 2 ^ i).
Proof.
  induction n as [|n IH]; intros w h; cbn [generated]; [split; auto; intros; lia|].
  destruct ((w <? 20) || (h <? 20)) eqn:T.
  - split; [discriminate|]; intros H; specialize (H 0 ltac:(lia)); cbn [Nat.pow] in H; rewrite !Nat.div_1_r in H; lia.
  - split.
    + intros E i I; destruct i as [|i]; [cbn [Nat.pow]; rewrite !Nat.div_1_r; lia|].
      cbn [Nat.pow]; rewrite <- !Nat.div_div by (try lia; apply Nat.pow_nonzero; lia); apply IH; lia.
    + intros H; f_equal; apply IH; intros i I; specialize (H (S i) ltac:(lia)); cbn [Nat.pow] in H.
      rewrite <- !Nat.div_div in H by (try lia; apply Nat.pow_nonzero; lia); auto.
Qed.

Lemma mapM_in_UB {A B} (f : A -> res B) l a : In a l -> f a = UB -> (forall b e, f b <> Throw e) -> mapM f l = UB.
Proof.
  intros I U T; induction l as [|b l IH]; [destruct I|]; cbn; destruct I as [->|I]; [rewrite U; auto|].
  destruct (f b) as [c|e|] eqn:E; cbn; auto; [rewrite IH; auto | destruct (T b e E)].
Qed.

Lemma search_tasks_short n octaves : length octaves < n -> search_tasks n octaves = UB.
Proof.
  intros L; unfold search_tasks; rewrite (mapM_in_UB _ _ (length octaves)); auto.
  - apply in_seq; lia.
  - unfold vget; rewrite (proj2 (nth_error_None _ _)) by lia; auto.
  - intros b e; unfold vget; destruct (nth_error octaves b); discriminate.
Qed.

Lemma search_tasks_ok n (octaves : list (list (image R))) m : n <= length octaves -> Forall (fun o => length o = m) octaves ->
  search_tasks n octaves = Ok (pairs (seq 0 n) (fun _ => seq 0 (usub m 2))).
Proof.
  intros L F; unfold search_tasks.
  rewrite (mapM_ok _ (fun oi => map (pair oi) (seq 0 (usub m 2)))).
  - cbn [bind]; f_equal; unfold pairs; rewrite flat_map_concat_map; auto.
  - intros oi I; apply in_seq in I; unfold vget; destruct (nth_error octaves oi) as [o|] eqn:E; [|apply nth_error_None in E; lia].
    cbn [bind]; rewrite Forall_forall in F; rewrite (F o) by (eapply nth_error_In; eauto); auto.
Qed.

Lemma for_list_flat {I S} (l : list I) (body : I -> list S -> res (list S)) (g : I -> list S) s :
  (forall i s, In i l -> body i s = Ok (s ++ g i)) -> for_list l body s = Ok (s ++ flat_map g l).
Proof.
  revert s; induction l as [|i l IH]; intros s H; cbn; [rewrite app_nil_r; auto|].
  rewrite H by (cbn; auto); cbn [bind]; rewrite IH by (intros; apply H; cbn; auto); rewrite <- app_assoc; auto.
Qed.

(** all three images of a task have the extents of their octave *)
Definition octaves_ok (octaves : list (list (image R))) (n m w h : nat) : Prop :=
  length octaves = n /\ forall i o, nth_error octaves i = Some o ->
    length o = m /\ Forall (fun im => is2d im (w / 2 ^ i) (h / 2 ^ i)) o /\ 20 <= w / 2 ^ i /\ 20 <= h / 2 ^ i.

Lemma search_octaves_ok order owner octaves n m w h contrast edge : octaves_ok octaves n m w h -> 2 <= m -> fits m ->
  (Z.of_nat w <= 2 ^ 63)%Z -> (Z.of_nat h <= 2 ^ 63)%Z ->
  (forall l, Permutation (order l) l) -> (forall oi si p q, owner oi si p = owner oi si q) ->
  exists results, search_octaves order owner n octaves contrast edge = Ok (flat_map results (order (pairs (seq 0 n) (fun _ => seq 0 (m - 2))))) /\
    forall oi si, oi < n -> si < m - 2 -> exists octave a b c,
      nth_error octaves oi = Some octave /\ nth_error octave si = Some a /\ nth_error octave (si + 1) = Some b /\ nth_error octave (si + 2) = Some c /\
      find_local_extrema (owner oi si) a b c oi si contrast edge false = Ok (results (oi, si)).
Proof.
  intros (L & O) M FM W H P OW.
  set (results := fun task : nat * nat => match nth_error octaves (fst task) with None => [] | Some octave =>
    match nth_error octave (snd task), nth_error octave (snd task + 1), nth_error octave (snd task + 2) with
    | Some a, Some b, Some c => match find_local_extrema (owner (fst task) (snd task)) a b c (fst task) (snd task) contrast edge false with Ok r => r | _ => [] end
    | _, _, _ => [] end end).
  assert (T : forall oi si, oi < n -> si < m - 2 -> exists octave a b c,
      nth_error octaves oi = Some octave /\ nth_error octave si = Some a /\ nth_error octave (si + 1) = Some b /\ nth_error octave (si + 2) = Some c /\
      find_local_extrema (owner oi si) a b c oi si contrast edge false = Ok (results (oi, si))).
  { intros oi si I J; destruct (nth_error octaves oi) as [octave|] eqn:Eo; [|apply nth_error_None in Eo; lia].
    destruct (O oi octave Eo) as (Lo & Fo & Wo & Ho); exists octave.
    destruct (nth_error octave si) as [a|] eqn:Ea; [|apply nth_error_None in Ea; lia].
    destruct (nth_error octave (si + 1)) as [b|] eqn:Eb; [|apply nth_error_None in Eb; lia].
    destruct (nth_error octave (si + 2)) as [c|] eqn:Ec; [|apply nth_error_None in Ec; lia].
    exists a, b, c; do 4 (split; [auto|]); unfold results; cbn [fst snd]; rewrite Eo, Ea, Eb, Ec.
    rewrite Forall_forall in Fo; destruct (Fo a (nth_error_In _ _ Ea)) as (fa & Ra); destruct (Fo b (nth_error_In _ _ Eb)) as (fb & Rb);
      destruct (Fo c (nth_error_In _ _ Ec)) as (fc & Rc).
    assert (Dw : w / 2 ^ oi <= w) by (apply Nat.div_le_upper_bound; [apply Nat.pow_nonzero; lia | pose proof (Nat.pow_nonzero 2 oi ltac:(lia)); nia]).
    assert (Dh : h / 2 ^ oi <= h) by (apply Nat.div_le_upper_bound; [apply Nat.pow_nonzero; lia | pose proof (Nat.pow_nonzero 2 oi ltac:(lia)); nia]).
    destruct (find_local_extrema_eq (owner oi si) a b c _ _ (fun k => match k with 0 => fa | 1 => fb | _ => fc end) oi si contrast edge false Ra Rb Rc) as (px & _ & _ & E); try lia.
    rewrite E; rewrite (proj2 (one_owner_spec (owner oi si) px)); auto. }
  exists results; split; [|exact T]; unfold search_octaves.
  rewrite (search_tasks_ok n octaves m); [|lia|].
  2:{ apply Forall_forall; intros o I; apply In_nth_error in I as (i & E); apply (O i o E). }
  cbn [bind]; rewrite usub_le by auto.
  rewrite (for_list_flat _ _ results); auto.
  intros [oi si] s I; apply (Permutation_in _ (P _)) in I; apply in_pairs in I; cbn [fst snd] in I; rewrite !in_seq in I.
  destruct (T oi si) as (octave & a & b & c & Eo & Ea & Eb & Ec & Ef); try lia.
  unfold vget; rewrite Eo; cbn [bind]; rewrite Ea, Eb, Ec; cbn [bind]; rewrite Ef; auto.
Qed.

Lemma search_octaves_few order owner octaves n m w h contrast edge : octaves_ok octaves n m w h -> 0 < n -> m < 2 ->
  (forall l, Permutation (order l) l) -> search_octaves order owner n octaves contrast edge = UB.
Proof.
  intros (L & O) N M P; unfold search_octaves; rewrite (search_tasks_ok n octaves m); [|lia|].
  2:{ apply Forall_forall; intros o I; apply In_nth_error in I as (i & E); apply (O i o E). }
  cbn [bind]; set (l := pairs _ _).
  assert (NE : l <> []).
  { intros E; assert (In (0, 0) l) as I; [|rewrite E in I; destruct I]; apply in_pairs; cbn [fst snd]; rewrite !in_seq.
    pose proof (usub_gt m 2 ltac:(unfold fits, two64; lia) M); unfold two64 in *; lia. }
  pose proof (P l) as PL; destruct (order l) as [|[oi si] r]; [apply Permutation_nil in PL; tauto|].
  assert (I : In (oi, si) l) by (apply (Permutation_in _ PL); cbn; auto); apply in_pairs in I; cbn [fst snd] in I; rewrite !in_seq in I.
  cbn [for_list]; unfold vget; destruct (nth_error octaves oi) as [octave|] eqn:Eo; [|reflexivity]; cbn [bind].
  destruct (O oi octave Eo) as (Lo & _).
  destruct (nth_error octave si); [|reflexivity]; destruct (nth_error octave (si + 1)); [|reflexivity]; cbn [bind].
  rewrite (proj2 (nth_error_None _ _)) by lia; reflexivity.
Qed.

Lemma map_keypoints_eq octaves n m w h W H kps : octaves_ok octaves n m w h -> 0 < m -> Forall (fun kp : keypoint => fst (fst kp) < n) kps ->
  map_keypoints octaves W H kps = mapM (fun kp : keypoint => mapping_point (snd kp) (w / 2 ^ fst (fst kp)) (h / 2 ^ fst (fst kp)) W H) kps.
Proof.
  intros (L & O) M F; unfold map_keypoints; induction F as [|[[oi si] loc] kps I F IH]; cbn [mapM]; auto.
  rewrite IH; cbn [fst snd] in *; unfold vget; destruct (nth_error octaves oi) as [o|] eqn:E; [|apply nth_error_None in E; lia]; cbn [bind].
  destruct (O oi o E) as (Lo & Fo & _); destruct o as [|a o]; [cbn in Lo; lia|]; cbn [nth_error bind].
  apply Forall_inv in Fo; destruct (is2d_width _ _ _ Fo) as (-> & -> & _); reflexivity.
Qed.

Lemma get_potential_keypoint_eq dog resample order owner input w h n levels sigma k contrast edge :
  keeps_octaves dog n levels sigma k w h -> resamples resample n w h -> is2d input w h -> (Z.of_nat w <= 2 ^ 63)%Z -> (Z.of_nat h <= 2 ^ 63)%Z -> fits levels ->
  (forall l, Permutation (order l) l) -> (forall oi si p q, owner oi si p = owner oi si q) ->
  (forall i, i < n -> 20 <= w / 2 ^ i /\ 20 <= h / 2 ^ i) -> 3 <= levels ->
  exists octaves results, build_octaves dog resample n levels sigma k input = Ok octaves /\ octaves_ok octaves n (levels - 1) w h /\
    (forall oi si, oi < n -> si < levels - 3 -> exists octave a b c,
      nth_error octaves oi = Some octave /\ nth_error octave si = Some a /\ nth_error octave (si + 1) = Some b /\ nth_error octave (si + 2) = Some c /\
      find_local_extrema (owner oi si) a b c oi si contrast edge false = Ok (results (oi, si))) /\
    get_potential_keypoint dog resample order owner input n levels sigma k contrast edge =
      mapM (fun kp : keypoint => mapping_point (snd kp) (w / 2 ^ fst (fst kp)) (h / 2 ^ fst (fst kp)) w h)
        (flat_map results (order (pairs (seq 0 n) (fun _ => seq 0 (levels - 3))))).
Proof.
  intros KE RS I BW BH FL P OW G L3; apply generated_all in G.
  destruct (build_octaves_ok dog resample n levels sigma k input w h RS KE I) as (octaves & EO & LO & HO).
  assert (OK : octaves_ok octaves n (levels - 1) w h) by (split; [lia | exact HO]).
  destruct (search_octaves_ok order owner octaves n (levels - 1) w h contrast edge OK) as (results & ES & T); auto; try lia; [unfold fits in *; lia|].
  replace (levels - 1 - 2) with (levels - 3) in * by lia.
  exists octaves, results; split; auto; split; auto; split; auto.
  unfold get_potential_keypoint; destruct (is2d_width _ _ _ I) as (EW & EH & ED); rewrite ED, EO; cbn [Nat.eqb negb bind].
  rewrite ES; cbn [bind]; rewrite EW, EH; cbn [bind]; apply (map_keypoints_eq octaves n (levels - 1)); auto; [lia|].
  apply Forall_forall; intros kp K; apply in_flat_map in K as ((oi & si) & It & K).
  apply (Permutation_in _ (P _)), in_pairs in It; cbn [fst snd] in It; rewrite !in_seq in It.
  destruct (T oi si) as (octave & a & b & c & Eo & Ea & Eb & Ec & Ef); try lia.
  destruct (HO oi octave Eo) as (Lo & Fo & Wo & Ho); rewrite Forall_forall in Fo.
  destruct (Fo a (nth_error_In _ _ Ea)) as (fa & Ra); destruct (Fo b (nth_error_In _ _ Eb)) as (fb & Rb); destruct (Fo c (nth_error_In _ _ Ec)) as (fc & Rc).
  assert (Dw : w / 2 ^ oi <= w) by (apply Nat.div_le_upper_bound; [apply Nat.pow_nonzero; lia | pose proof (Nat.pow_nonzero 2 oi ltac:(lia)); nia]).
  assert (Dh : h / 2 ^ oi <= h) by (apply Nat.div_le_upper_bound; [apply Nat.pow_nonzero; lia | pose proof (Nat.pow_nonzero 2 oi ltac:(lia)); nia]).
  destruct (find_local_extrema_eq (owner oi si) a b c _ _ (fun k => match k with 0 => fa | 1 => fb | _ => fc end) oi si contrast edge false Ra Rb Rc) as (px & _ & _ & E); try lia.
  rewrite Ef in E; destruct (one_owner (owner oi si) px); [|discriminate]; injection E as E; rewrite E in K.
  apply in_map_iff in K as (p & <- & _); cbn; lia.
Qed.

Lemma get_potential_keypoint_UB dog resample order owner input w h n levels sigma k contrast edge :
  keeps_octaves dog n levels sigma k w h -> resamples resample n w h -> is2d input w h -> (forall l, Permutation (order l) l) ->
  (exists i, i < n /\ (w / 2 ^ i < 20 \/ h / 2 ^ i < 20)) \/ (0 < n /\ 20 <= w /\ 20 <= h /\ levels < 3) ->
  get_potential_keypoint dog resample order owner input n levels sigma k contrast edge = UB.
Proof.
  intros KE RS I P Q.
  destruct (build_octaves_ok dog resample n levels sigma k input w h RS KE I) as (octaves & EO & LO & HO).
  unfold get_potential_keypoint; destruct (is2d_width _ _ _ I) as (EW & EH & ED); rewrite ED, EO; cbn [Nat.eqb negb bind].
  destruct (Nat.lt_ge_cases (generated n w h) n) as [GL|GG].
  - unfold search_octaves; rewrite search_tasks_short by lia; reflexivity.
  - assert (GE : generated n w h = n) by (pose proof (generated_le n w h); lia).
    destruct Q as [(i & In & Iw)|(N & W & H & L)]; [apply generated_all with (i := i) in GE; auto; lia|].
    rewrite (search_octaves_few order owner octaves n (levels - 1) w h); auto; [split; [lia | exact HO] | lia].
Qed.

(** ** mapping to the original image *)
Lemma to_size_t_ok r : (0 <= r < IZR two64)%R -> exists n, to_size_t r = Ok n /\ (INR n <= r < INR n + 1)%R.
Proof.
  intros (L & U); unfold to_size_t; rewrite (proj2 (rleb_false r (-1))) by lra; rewrite (proj2 (rleb_false (IZR two64) r)) by lra; cbn [orb].
  exists (Z.to_nat (Int_part r)); split; auto.
  destruct (base_Int_part r) as (B1 & B2).
  assert (Z0 : (0 <= Int_part r)%Z) by (apply Z.lt_succ_r, lt_IZR; unfold Z.succ; rewrite plus_IZR; lra).
  rewrite INR_IZR_INZ, Z2Nat.id by auto; lra.
Qed.
Lemma to_size_t_UB r : (r <= -1 \/ IZR two64 <= r)%R -> to_size_t r = UB.
Proof.
  intros [H|H]; unfold to_size_t; rewrite (proj2 (rleb_spec _ _) H); auto; rewrite orb_true_r; auto.
Qed.

Lemma mapping_point_ok x y iw ih tw th : (0 <= x < INR iw)%R -> (0 <= y < INR ih)%R -> 0 < tw -> 0 < th ->
  (Z.of_nat tw < two64)%Z -> (Z.of_nat th < two64)%Z ->
  exists px py, mapping_point (Some (x, y)) iw ih tw th = Ok (px, py) /\ px < tw /\ py < th /\
    (INR px <= x * INR tw / INR iw < INR px + 1)%R /\ (INR py <= y * INR th / INR ih < INR py + 1)%R.
Proof.
  intros X Y TW TH FW FH.
  assert (I : forall n, (0 < INR n)%R -> n <> 0) by (intros n H ->; cbn in H; lra).
  assert (NW : iw <> 0) by (apply I; lra); assert (NH : ih <> 0) by (apply I; lra).
  assert (B : forall a n t, (0 <= a < INR n)%R -> 0 < t -> (Z.of_nat t < two64)%Z -> (0 <= a / INR n * INR t < INR t)%R /\ (INR t <= IZR two64)%R).
  { intros a n t A T FT; assert (0 < INR t)%R by (apply lt_0_INR; lia); split; [split|].
    - apply Rmult_le_pos; [apply Rmult_le_pos; [lra | left; apply Rinv_0_lt_compat; lra] | lra].
    - apply Rmult_lt_reg_r with (/ INR t)%R; [apply Rinv_0_lt_compat; lra|].
      rewrite Rmult_assoc, Rinv_r, Rmult_1_r by lra; apply Rmult_lt_reg_r with (INR n); [lra|]; unfold Rdiv; rewrite Rmult_assoc, Rinv_l by lra; lra.
    - rewrite INR_IZR_INZ; apply IZR_le; lia. }
  destruct (B x iw tw X TW FW) as (Bx & Cx); destruct (B y ih th Y TH FH) as (By & Cy).
  destruct (to_size_t_ok (x / INR iw * INR tw)) as (px & Ex & Px); [lra|]; destruct (to_size_t_ok (y / INR ih * INR th)) as (py & Ey & Py); [lra|].
  exists px, py; unfold mapping_point.
  destruct (Nat.eqb_spec iw 0); [tauto|]; destruct (Nat.eqb_spec ih 0); [tauto|]; cbn [orb]; rewrite Ex; cbn [bind]; rewrite Ey; cbn [bind].
  split; auto; split; [apply INR_lt; lra|]; split; [apply INR_lt; lra|].
  replace (x * INR tw / INR iw)%R with (x / INR iw * INR tw)%R by (unfold Rdiv; ring).
  replace (y * INR th / INR ih)%R with (y / INR ih * INR th)%R by (unfold Rdiv; ring); auto.
Qed.

Lemma mapping_point_UB x y iw ih tw th : 0 < iw -> 0 < tw -> (x * INR tw <= - INR iw)%R -> mapping_point (Some (x, y)) iw ih tw th = UB.
Proof.
  intros IW TW X; unfold mapping_point; destruct (Nat.eqb_spec iw 0); [lia|]; destruct (Nat.eqb_spec ih 0); [auto|]; cbn [orb].
  assert (0 < INR iw)%R by (apply lt_0_INR; lia); rewrite to_size_t_UB; auto; left.
  replace (x / INR iw * INR tw)%R with (x * INR tw / INR iw)%R by (unfold Rdiv; ring).
  apply Rmult_le_reg_r with (INR iw); auto; unfold Rdiv; rewrite Rmult_assoc, Rinv_l by lra; lra.
Qed.
