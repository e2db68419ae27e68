(** PropPano.v - the stitching of two pictures and of a sequence, and the drawing of matches: C120 to C122. *)
From Coq Require Import QArith Qcanon Qround Field Lqa ZifyBool ZifyNat.
From Verif Require Import Base ImageModel ImageFacts IndexModel ImageProofs PixelModel PixelProofs GeomModel GeomProofs DrawModel DrawProofs InterpModel InterpProofs
  OField LinModel LinProofs MatchModel MatchProofs HomModel HomProofs WarpProofs PanoModel PropMatch PropRobust PropStitch PropDraw PropInterp PropLin BundleProofs.
Open Scope nat_scope.

(** ** C120 *)
Lemma zero_matrix_Repr (K : ofield) : MRepr (mat_new (@f0 K) 3 3) 3 3 (fun _ _ => f0).
Proof. apply mat_new_MRepr. Qed.
Lemma found_corner (K : ofield) (eps : K) solve points H0 H : fltb f0 eps = true -> compute_homography K eps solve points H0 = Ok (true, H) ->
  exists f, MRepr H 3 3 f /\ f 2 2 = f1.
Proof.
  intros He E; destruct (compute_homography_true K eps solve points H0 H E) as (A & h & _ & _ & _ & _ & N & M); eexists; split; [exact M|].
  cbn [Nat.mul Nat.add]; assert (X : nth 8 h f0 <> f0).
  { intros X; rewrite X in N; rewrite fabs_0 in N; congruence. }
  destruct (f_field K) as [_ _ D I]; rewrite D; rewrite (Rmul_comm (F_R (f_field K))); apply I; auto.
Qed.

Section Zero.
  Variable K : ofield.
  Add Field KF9 : (f_field K).
  Lemma lin_zero r (x y : K) : lin K (fun _ _ => f0) r x y = f0.
  Proof. unfold lin; ring. Qed.
End Zero.

(** what a match costs whose projection is at the squared distance [d]: with RANSAC one unless it is within the threshold, with MSAC
    the squared distance, but no more than the squared threshold *)
Definition penalty (K : ofield) (m : estimator) (d thr_sq : K) : K :=
  match m with RANSAC => if fltb d thr_sq then f0 else f1 | MSAC => if fltb thr_sq d then thr_sq else d end.

Theorem C120_homography (K : ofield) (eps big : K) solve (I D : Type) (detect : I -> res (list point)) (describe : I -> point -> res D) dist
  s1 s2 img1 img2 method draws ratio iterations thr kp1 kp2 d1 d2 d12 d21 :
  fltb f0 eps = true -> (forall points A, dlt_matrix K points = Ok A -> exists h, solve A = Ok h) ->
  detect img1 = Ok kp1 -> detect img2 = Ok kp2 -> mapM (describe img1) kp1 = Ok d1 -> mapM (describe img2) kp2 = Ok d2 ->
  sched1_ok s1 -> sched1_ok s2 -> distances K big dist d1 d2 d12 -> distances K big dist d2 d1 d21 ->
  let result := find_stitch_homography K eps big solve detect describe dist s1 s2 img1 img2 method draws ratio iterations thr in
  exists ms, NoDup ms /\ (forall i j, In (i, j) ms <-> mutual K big (length kp1) (length kp2) d12 d21 ratio i j) /\
    (* too few: an empty matrix *)
    (length ms < 4 -> exists H, result = Some (Ok H) /\ mat_empty H = true) /\
    (* enough: a 3 x 3 matrix with lower right entry one, or with all entries zero when no sample of four gave a matrix *)
    (forall qs rest, 4 <= length ms -> (forall d, In d draws -> d < length ms) -> samples draws qs rest -> length qs = Z.to_nat iterations ->
      let usable := exists k H f, k < length qs /\ candidate eps solve kp1 kp2 ms (nth k qs []) H /\ MRepr H 3 3 f /\
                      fltb (cost eps (penalty K method) kp1 kp2 ms (fmul thr thr) f) big = true in
      exists H f, result = Some (Ok H) /\ mat_empty H = false /\ MRepr H 3 3 f /\
        (usable -> f 2 2 = f1) /\ (~ usable -> forall i j, i < 3 -> j < 3 -> f i j = f0)).
Proof.
  intros He Hsolve E1 E2 M1 M2 S1 S2 D1 D2 result.
  assert (EP : penalty K method = scorer_of K method) by (destruct method; reflexivity). rewrite EP.
  destruct (C53_robust K big dist s1 s2 d1 d2 ratio d12 d21 S1 S2 D1 D2) as (ms & EM & GM & N1 & N2).
  pose proof (mapM_length _ _ _ M1) as L1; pose proof (mapM_length _ _ _ M2) as L2; rewrite L1, L2 in GM.
  exists ms; split; [eapply NoDup_map_inv; eauto|]; split; auto.
  assert (Q : stitch_matches K big detect describe dist s1 s2 img1 img2 ratio = Ok (if length ms <? 4 then None else Some (kp1, kp2, ms))).
  { unfold stitch_matches; rewrite E1, E2; cbn [bind]; destruct ((length kp1 =? 0) || (length kp2 =? 0)) eqn:Z.
    - destruct ms as [|(i, j) ms]; [reflexivity|]; exfalso; destruct (proj1 (GM i j) (or_introl eq_refl)) as (? & ? & _); lia.
    - rewrite M1, M2; cbn [bind]; rewrite EM; cbn [bind]; destruct (length ms <? 4); auto. }
  unfold result, find_stitch_homography; rewrite Q; split.
  { intros L; destruct (Nat.ltb_spec (length ms) 4); [|lia]; eexists; split; reflexivity. }
  intros qs rest L4 Hd Sm Lq; cbv zeta.
  set (usable := exists k H f, k < length qs /\ candidate eps solve kp1 kp2 ms (nth k qs []) H /\ MRepr H 3 3 f /\
                   fltb (cost eps (scorer_of K method) kp1 kp2 ms (fmul thr thr) f) big = true).
  destruct (Nat.ltb_spec (length ms) 4); [lia|].
  assert (Hm : forall m, In m ms -> fst m < length kp1 /\ snd m < length kp2).
  { intros (i, j) X; apply GM in X; destruct X as (? & ? & _); auto. }
  destruct (C55_best K eps big solve (scorer_of K method) kp1 kp2 ms draws iterations thr qs rest L4 Hm Hd Hsolve Sm Lq) as (H0 & EH & B).
  rewrite EH; cbn [bind].
  destruct B as [(k & f & Hk & C & MH & Hc & _)|(-> & NB)].
  - destruct (found_corner K eps solve _ _ _ He C) as (f' & MH' & F').
    assert (U : usable) by (exists k, H0, f; auto).
    rewrite (C80_refine K eps solve kp1 kp2 ms H0 f' thr MH' Hm).
    destruct (_ <? 4); [exists H0, f'; split; auto; split; [apply (mat_empty3 K H0 f' MH')|]; split; auto; split; auto; tauto|].
    match goal with |- context [compute_homography K eps solve ?p ?q] => destruct (compute_total K eps solve (scorer_of K method) thr Hsolve p q) as (b & H1 & E & _) end.
    rewrite E; destruct b.
    + destruct (found_corner K eps solve _ _ _ He E) as (f1' & MH1 & F1); exists H1, f1'; split; auto; split; [apply (mat_empty3 K H1 f1' MH1)|].
      split; auto; split; auto; tauto.
    + exists H0, f'; split; auto; split; [apply (mat_empty3 K H0 f' MH')|]; split; auto; split; auto; tauto.
  - rewrite (C80_refine K eps solve kp1 kp2 ms _ _ thr (zero_matrix_Repr K) Hm).
    exists (mat_new f0 3 3), (fun _ _ => f0); split.
    { match goal with |- context [length (map ?g (filter ?p ms))] => assert (X : filter p ms = []) end.
      { assert (Y : forall m, inlier eps kp1 kp2 (fmul thr thr) (fun _ _ => f0) m = false).
        { intros m; unfold inlier; cbv zeta; rewrite lin_zero, fabs_0, He; reflexivity. }
        clear - Y; induction ms as [|m ms IH]; auto; cbn [filter]; rewrite Y; auto. }
      rewrite X; reflexivity. }
    split; [reflexivity|]; split; [apply zero_matrix_Repr|]; split; auto.
    intros (k & H1 & f & Hk & C & M & Hc); rewrite (NB k H1 f Hk C M) in Hc; discriminate.
Qed.
Print Assumptions C120_homography.

(** Four keypoints on one row, the same in both pictures. *)
Definition row4 : list point := [(0, 0); (1, 0); (2, 0); (3, 0)].
Definition square_distance (a b : nat) : res Qcfield := Ok ((fnat Qcfield a - fnat Qcfield b) * (fnat Qcfield a - fnat Qcfield b))%Qc.
Definition by_x (_ : unit) (p : point) : res nat := Ok (fst p).
(** a unit vector that solves the homogeneous system of any points with y = 0 *)
Definition second_unit (_ : matrix Qcfield) : res (list Qcfield) := Ok [qc 0 1; qc 1 1; qc 0 1; qc 0 1; qc 0 1; qc 0 1; qc 0 1; qc 0 1; qc 0 1].
(** a vector that solves it for the points of the example too, and gives a matrix *)
Definition identity_vector (_ : matrix Qcfield) : res (list Qcfield) := Ok [qc 2 1; qc 0 1; qc 0 1; qc 0 1; qc 2 1; qc 0 1; qc 0 1; qc 0 1; qc 2 1].
Definition numerators (l : list Qcfield) := map (fun q : Qcfield => Qnum (this (q : Qc))) l.

Lemma row4_matches n : n = 3 \/ n = 4 ->
  stitch_matches Qcfield (qc 1000 1) (fun _ : unit => Ok (firstn n row4)) by_x square_distance seq0 seq0 tt tt (qc 1 2) =
    Ok (if n <? 4 then None else Some (row4, row4, combine (seq 0 4) (seq 0 4))).
Proof. intros [->| ->]; lazy; reflexivity. Qed.

(** An empty matrix is meant to say that no homography was found.  When the points are on a line the solver may return a
    solution that gives no matrix: the answer is then a matrix of nine zeros, which is not empty. *)
Theorem C120_refuted : exists (solve : matrix Qcfield -> res (list Qcfield)) H,
  (exists A h, dlt_matrix Qcfield (combine row4 row4) = Ok A /\ solve A = Ok h /\ numerators h = [0; 1; 0; 0; 0; 0; 0; 0; 0]%Z /\
     exists z, multiply (@f0 Qcfield) fadd fmul A (mkMatrix 9 1 h) = Ok z /\ numerators (data z) = repeat 0%Z 8) /\
  (forall method, find_stitch_homography Qcfield tiny (qc 1000 1) solve (fun _ : unit => Ok row4) by_x square_distance seq0 seq0 tt tt method [0; 1; 2; 3] (qc 1 2) 1 (qc 3 1)
    = Some (Ok H)) /\ mat_empty H = false /\ numerators (data H) = repeat 0%Z 9.
Proof.
  exists second_unit, (mat_new (@f0 Qcfield) 3 3). split; [|split; [|split; reflexivity]].
  - do 2 eexists. split; [vm_compute; reflexivity|]. split; [reflexivity|]. split; [reflexivity|].
    eexists. split; [vm_compute; reflexivity|]. vm_compute. reflexivity.
  - intros method. unfold find_stitch_homography. change row4 with (firstn 4 row4) at 1. rewrite (row4_matches 4) by auto. destruct method; vm_compute; reflexivity.
Qed.
Print Assumptions C120_refuted.

(** A case with a matrix, and one with too few keypoints. *)
Example C120_case : forall method,
  (exists H, find_stitch_homography Qcfield tiny (qc 1000 1) identity_vector (fun _ : unit => Ok row4) by_x square_distance seq0 seq0 tt tt method [0; 1; 2; 3] (qc 1 2) 1 (qc 3 1)
    = Some (Ok H) /\ numerators (data H) = [1; 0; 0; 0; 1; 0; 0; 0; 1]%Z) /\
  find_stitch_homography Qcfield tiny (qc 1000 1) identity_vector (fun _ : unit => Ok (firstn 3 row4)) by_x square_distance seq0 seq0 tt tt method [0; 1; 2; 3] (qc 1 2) 1 (qc 3 1)
    = Some (Ok (mat_new f0 0 0)).
Proof.
  intros method. unfold find_stitch_homography. change (fun _ : unit => Ok row4) with (fun _ : unit => Ok (firstn 4 row4)).
  rewrite (row4_matches 3), (row4_matches 4) by auto. split; [|reflexivity].
  destruct method; (eexists; split; [vm_compute; reflexivity|vm_compute; reflexivity]).
Qed.

(** ** C121 *)
(** a panorama of the pictures of a list: the first, and each further picture joined to the panorama of those before it *)
Inductive panorama_of eps inv_eps interp out_of_range (find : nat -> image (list Z) -> image (list Z) -> res (matrix Qcfield)) sg1 sg2 :
  list (image (list Z)) -> image (list Z) -> Prop :=
| pano_first a : panorama_of eps inv_eps interp out_of_range find sg1 sg2 [a] a
| pano_next l p b H q w : panorama_of eps inv_eps interp out_of_range find sg1 sg2 l p ->
    find (length l) p b = Ok H -> mat_empty H = false ->
    create_stitched_image eps inv_eps interp out_of_range (sg1 (length l)) (sg2 (length l)) p b H = Ok q ->
    get_width q = Ok w -> 0 < w -> panorama_of eps inv_eps interp out_of_range find sg1 sg2 (l ++ [b]) q.

Section Run.
  Variables eps inv_eps : Qcfield.
  Variable interp : image (list Z) -> Qcfield -> Qcfield -> res (list Z).
  Variable oor : Qc -> res nat.
  Variable find : nat -> image (list Z) -> image (list Z) -> res (matrix Qcfield).
  Variables sg1 sg2 : nat -> nat -> nat -> list (nat * nat).
  Notation pano := (panorama_of eps inv_eps interp oor find sg1 sg2).
  Notation stitch := (stitch_sequential eps inv_eps interp oor find sg1 sg2).
  Notation loop := (stitch_loop eps inv_eps interp oor find sg1 sg2).

  Lemma pano_run l p : pano l p -> 0 < length l /\ forall rest, stitch (l ++ rest) = loop (length l) p rest.
  Proof.
    induction 1 as [a|l p b H q w P (L & IH) EF EE EC EW W].
    - split; [cbn; lia|]. intros [|r rest]; reflexivity.
    - split; [rewrite app_length; cbn; lia|]. intros rest. rewrite <- app_assoc. cbn [app]. rewrite IH.
      cbn [stitch_loop]. rewrite EF. cbn [bind]. rewrite EE, EC. cbn [bind]. rewrite EW. cbn [bind].
      destruct (Nat.eqb_spec w 0); [lia|]. rewrite app_length. cbn [length]. rewrite Nat.add_1_r. reflexivity.
  Qed.

  Definition stops (l : list (image (list Z))) p (rest : list (image (list Z))) := exists b r H, rest = b :: r /\ find (length l) p b = Ok H /\
    (mat_empty H = true \/ exists q, create_stitched_image eps inv_eps interp oor (sg1 (length l)) (sg2 (length l)) p b H = Ok q /\ get_width q = Ok 0).

  Lemma loop_inv rest : forall l p r, pano l p -> loop (length l) p rest = Ok r ->
    exists l' rest', l ++ rest = l' ++ rest' /\ pano l' r /\ (rest' = [] \/ stops l' r rest').
  Proof.
    induction rest as [|b rest IH]; intros l p r P E; cbn [stitch_loop] in E.
    - injection E as <-. exists l, []. auto.
    - destruct (find (length l) p b) as [H| |] eqn:EF; cbn [bind] in E; try discriminate.
      destruct (mat_empty H) eqn:EE.
      { injection E as <-. exists l, (b :: rest). split; auto. split; auto. right. exists b, rest, H. auto. }
      destruct (create_stitched_image eps inv_eps interp oor (sg1 (length l)) (sg2 (length l)) p b H) as [q| |] eqn:EC; cbn [bind] in E; try discriminate.
      destruct (get_width q) as [w| |] eqn:EW; cbn [bind] in E; try discriminate.
      destruct (Nat.eqb_spec w 0) as [->|W].
      { injection E as <-. exists l, (b :: rest). split; auto. split; auto. right. exists b, rest, H. split; auto. split; auto. right. exists q. auto. }
      assert (P' : pano (l ++ [b]) q) by (eapply pano_next; eauto; lia).
      assert (L : length (l ++ [b]) = S (length l)) by (rewrite app_length; cbn [length]; lia).
      rewrite <- L in E. destruct (IH _ _ _ P' E) as (l' & rest' & X & Y & Z).
      exists l', rest'. rewrite <- app_assoc in X. auto.
  Qed.

  (** the canvas is never smaller than the first picture *)
  Lemma bounds_hold H w1 h1 w2 h2 a b c e : canvas_bounds oor H w1 h1 w2 h2 = Ok (a, b, c, e) ->
    (this a <= 0 /\ qn w1 <= this b /\ this c <= 0 /\ qn h1 <= this e)%Q.
  Proof.
    unfold canvas_bounds. cbv zeta. intros E.
    destruct (cast_size oor _) as [r| |] in E; cbn [bind] in E; try discriminate.
    destruct (cast_size oor _) as [s| |] in E; cbn [bind] in E; try discriminate.
    pose (Inv := fun bd : Qc * Qc * Qc * Qc => let '(a, b, c, e) := bd in (this a <= 0 /\ qn w1 <= this b /\ this c <= 0 /\ qn h1 <= this e)%Q).
    change (Inv (a, b, c, e)). eapply for_list_keep with (P := Inv); [| |exact E].
    - intros (i, j) (((a', b'), c'), e') s' _ (A & B & C & D) X. cbn [fst snd] in X.
      destruct (linear_form Qcfield H 2 _ _) as [w| |] in X; cbn [bind] in X; try discriminate.
      destruct (Qc_eq_bool w 0); try discriminate.
      destruct (linear_form Qcfield H 0 _ _) as [nx| |] in X; cbn [bind] in X; try discriminate.
      destruct (linear_form Qcfield H 1 _ _) as [ny| |] in X; cbn [bind] in X; try discriminate.
      injection X as <-. unfold Inv.
      repeat split; match goal with |- context [if ?t then _ else _] => destruct t eqn:T end; auto; apply qcltb_true in T; lra.
    - unfold Inv. rewrite !this_fnat. change (this (Q2Qc 0)) with 0%Q. repeat split; lra.
  Qed.
  Lemma extent_bound lo hi n m : (forall q, oor q = UB) -> (this lo <= 0)%Q -> (qn n <= this hi)%Q ->
    cast_size oor (Q2Qc (inject_Z (Qceiling (this (hi - lo)%Qc)))) = Ok m -> n <= m.
  Proof.
    intros HU A B. unfold cast_size. cbv zeta.
    rewrite (trunc_Z (Qceiling (this (hi - lo)%Qc)) (this (Q2Qc (inject_Z (Qceiling (this (hi - lo)%Qc)))))) by apply this_Q2Qc.
    destruct ((_ <=? _)%Z && _) eqn:T; [|rewrite HU; discriminate]. injection 1 as <-.
    assert (X : (Z.of_nat n <= Qceiling (this (hi - lo)%Qc))%Z).
    { rewrite <- (Qceiling_Z (Z.of_nat n)). apply Qceiling_resp_le. rewrite this_sub. fold (qn n). lra. }
    rewrite <- (Nat2Z.id n). apply Z2Nat.inj_le; [apply Nat2Z.is_nonneg| |exact X]. etransitivity; [apply Nat2Z.is_nonneg|exact X].
  Qed.
  Lemma create_dims i p b H q w1 h1 : (forall q, oor q = UB) -> get_width p = Ok w1 -> get_height p = Ok h1 -> mat_empty H = false ->
    create_stitched_image eps inv_eps interp oor (sg1 i) (sg2 i) p b H = Ok q -> q = mkImage [] [] \/
    exists ow oh, dims q = [ow; oh] /\ w1 <= ow /\ h1 <= oh.
  Proof.
    intros HU W Hh EE E. unfold create_stitched_image in E. rewrite EE in E.
    destruct (invert Qcfield inv_eps H) as [H'| |]; cbn [bind] in E; try discriminate.
    destruct (mat_empty H'); [injection E as <-; auto|]. right.
    destruct (get_width b) as [w2| |]; cbn [bind] in E; try discriminate.
    destruct (get_height b) as [h2| |]; cbn [bind] in E; try discriminate.
    rewrite W, Hh in E. cbn [bind] in E.
    destruct (canvas_bounds oor H' w1 h1 w2 h2) as [(((mx, Mx), my), My)| |] eqn:EB; cbn [bind] in E; try discriminate.
    apply bounds_hold in EB. destruct EB as (B1 & B2 & B3 & B4).
    destruct (cast_size oor (Q2Qc (inject_Z (Qceiling (this (Mx - mx)%Qc))))) as [ow| |] eqn:EW; cbn [bind] in E; try discriminate.
    destruct (cast_size oor (Q2Qc (inject_Z (Qceiling (this (My - my)%Qc))))) as [oh| |] eqn:EH; cbn [bind] in E; try discriminate.
    destruct (translation _ _) as [T| |]; cbn [bind] in E; try discriminate.
    destruct (multiply _ _ _ _ _) as [HF| |]; cbn [bind] in E; try discriminate.
    destruct (warp_perspective _ _ _ _ _ _ _ _ _) as [wp| |]; cbn [bind] in E; try discriminate.
    exists ow, oh. split; [|split; [exact (extent_bound mx Mx w1 ow HU B1 B2 EW)|exact (extent_bound my My h1 oh HU B3 B4 EH)]].
    revert E. apply for_list_keep with (P := fun o => dims o = [ow; oh]); [|reflexivity]. clear.
    intros (y, x) s s' _ D X. destruct (stitch_pixel _ _ _ _ _ _ _ _ _) as [o| |] in X; cbn [bind] in X; try discriminate.
    destruct o as [v|]; cbn [write_pixel] in X; [|congruence].
    unfold at_set in X. repeat match type of X with (let* _ := ?r in _) = _ => destruct r; cbn [bind] in X; try discriminate end.
    injection X as <-. exact D.
  Qed.
End Run.

Theorem C121_sequence eps inv_eps interp out_of_range find sg1 sg2 :
  let stitch := stitch_sequential eps inv_eps interp out_of_range find sg1 sg2 in
  let panorama := panorama_of eps inv_eps interp out_of_range find sg1 sg2 in
  let create i := create_stitched_image eps inv_eps interp out_of_range (sg1 i) (sg2 i) in
  stitch [] = Ok (mkImage [] []) /\
  (forall a, stitch [a] = Ok a) /\
  (* the panorama of all pictures *)
  (forall l p, panorama l p -> stitch l = Ok p) /\
  (* when no homography is found for a picture, the panorama of the pictures before it, whatever comes after *)
  (forall l p b rest H, panorama l p -> find (length l) p b = Ok H -> mat_empty H = true -> stitch (l ++ b :: rest) = Ok p) /\
  (* the same when the joined picture has no columns *)
  (forall l p b rest H q, panorama l p -> find (length l) p b = Ok H -> mat_empty H = false -> create (length l) p b H = Ok q -> get_width q = Ok 0 ->
    stitch (l ++ b :: rest) = Ok p) /\
  (* nothing else is ever returned *)
  (forall images r, images <> [] -> stitch images = Ok r -> exists l rest, images = l ++ rest /\ panorama l r /\
    (rest = [] \/ exists b rest' H, rest = b :: rest' /\ find (length l) r b = Ok H /\
       (mat_empty H = true \/ exists q, create (length l) r b H = Ok q /\ get_width q = Ok 0))).
Proof.
  cbv zeta. split; [reflexivity|]. split; [reflexivity|]. split; [|split; [|split]].
  - intros l p P. destruct (pano_run _ _ _ _ _ _ _ l p P) as (_ & R). specialize (R []). rewrite app_nil_r in R. exact R.
  - intros l p b rest H P EF EE. destruct (pano_run _ _ _ _ _ _ _ l p P) as (_ & R). rewrite R. cbn [stitch_loop]. rewrite EF. cbn [bind]. rewrite EE. reflexivity.
  - intros l p b rest H q P EF EE EC EW. destruct (pano_run _ _ _ _ _ _ _ l p P) as (_ & R). rewrite R. cbn [stitch_loop]. rewrite EF. cbn [bind]. rewrite EE, EC. cbn [bind].
    rewrite EW. reflexivity.
  - intros [|a images] r N E; [congruence|].
    assert (X : stitch_sequential eps inv_eps interp out_of_range find sg1 sg2 (a :: images) = stitch_loop eps inv_eps interp out_of_range find sg1 sg2 1 a images).
    { destruct images; reflexivity. }
    rewrite X in E. destruct (loop_inv eps inv_eps interp out_of_range find sg1 sg2 images [a] a r (pano_first _ _ _ _ _ _ _ a) E) as (l & rest & A & B & C).
    exists l, rest. auto.
Qed.
Print Assumptions C121_sequence.

(** Every panorama is at least as large as the first picture. *)
Theorem C121_grows eps inv_eps interp out_of_range find sg1 sg2 a w h l p :
  (forall q, out_of_range q = UB) -> dims a = [w; h] ->
  panorama_of eps inv_eps interp out_of_range find sg1 sg2 (a :: l) p -> exists w' h', dims p = [w'; h'] /\ w <= w' /\ h <= h'.
Proof.
  intros HU Da P. remember (a :: l) as al eqn:Eal. revert l Eal.
  induction P as [a0|l0 p0 b H q w0 P IH EF EE EC EW W]; intros l Eal.
  - injection Eal as <- <-. eauto.
  - destruct l0 as [|a1 l0]; [exfalso; destruct (pano_run _ _ _ _ _ _ _ [] p0 P) as (L & _); cbn in L; lia|]. injection Eal as -> <-.
    destruct (IH l0 eq_refl) as (w1 & h1 & D1 & L1 & L2).
    assert (E1 : get_width p0 = Ok w1) by (unfold get_width; rewrite D1; reflexivity).
    assert (E2 : get_height p0 = Ok h1) by (unfold get_height, get_dimensionality; rewrite D1; reflexivity).
    eapply create_dims in EC; eauto; destruct EC as [->|(ow & oh & D & A & B)]; [discriminate EW|].
    exists ow, oh. split; auto. split; lia.
Qed.
Print Assumptions C121_grows.

(** A homography that is not empty but cannot be inverted (such as the nine zeros of C120_refuted) is not taken for a
    failure: the width of an image without dimensions is read. *)
Theorem C121_singular_refuted eps inv_eps interp out_of_range find sg1 sg2 l p b rest H f :
  fltb (@f0 Qcfield) inv_eps = true -> panorama_of eps inv_eps interp out_of_range find sg1 sg2 l p ->
  find (length l) p b = Ok H -> MRepr H 3 3 f -> fltb (@fabs Qcfield (det3 Qcfield f)) inv_eps = true ->
  stitch_sequential eps inv_eps interp out_of_range find sg1 sg2 (l ++ b :: rest) = UB.
Proof.
  intros He P EF M D. destruct (pano_run _ _ _ _ _ _ _ l p P) as (_ & R). rewrite R. cbn [stitch_loop]. rewrite EF. cbn [bind].
  rewrite (mat_empty3 Qcfield H f M).
  rewrite (proj1 (C56_empty eps inv_eps interp out_of_range p b H (sg1 (length l)) (sg2 (length l)) seq0 seq0 He (or_intror (ex_intro _ f (conj M D))))).
  reflexivity.
Qed.
Print Assumptions C121_singular_refuted.

(** Three pictures of one row; the third has no homography. *)
Example C121_case : forall out_of_range, exists p,
  let find := fun i (_ _ : image (list Z)) => Ok (if i =? 2 then mat_new (@f0 Qcfield) 0 0 else shift_matrix (qc (-1) 1) (qc 0 1)) in
  stitch_sequential tiny threshold rgb_bicubic out_of_range find (fun _ => grid) (fun _ => grid)
    [row_image [grey 10; grey 20]; row_image [grey 20; grey 30; grey 40]; row_image [grey 50]] = Ok p /\
  panorama_of tiny threshold rgb_bicubic out_of_range find (fun _ => grid) (fun _ => grid)
    [row_image [grey 10; grey 20]; row_image [grey 20; grey 30; grey 40]] p /\
  dims p = [3; 1].
Proof.
  intros oor. eexists. split; [vm_compute; reflexivity|]. split; [|reflexivity].
  eapply (pano_next _ _ _ _ _ _ _ [_]); [apply pano_first|reflexivity|reflexivity|vm_compute; reflexivity|reflexivity|lia].
Qed.
Example C121_singular_case : forall out_of_range,
  stitch_sequential tiny threshold rgb_bicubic out_of_range (fun _ _ _ => Ok (mat_new (@f0 Qcfield) 3 3)) (fun _ => grid) (fun _ => grid)
    [row_image [grey 10; grey 20]; row_image [grey 20; grey 30]] = UB.
Proof. intros oor. vm_compute. reflexivity. Qed.

(** ** C122 *)
(** the pixels of a straight line from (x1, y1) to (x2, y2): one step of at most one column and one row after the other, each
    within half a pixel of the straight line *)
Definition straight (path : list (Z * Z)) (x1 y1 x2 y2 : Z) : Prop :=
  hd (0, 0)%Z path = (x1, y1) /\ last path (0, 0)%Z = (x2, y2) /\
  length path = S (Z.to_nat (Z.max (Z.abs (x2 - x1)) (Z.abs (y2 - y1)))) /\
  (forall i p q, nth_error path i = Some p -> nth_error path (S i) = Some q -> p <> q /\ (Z.abs (fst q - fst p) <= 1 /\ Z.abs (snd q - snd p) <= 1)%Z) /\
  (forall p, In p path -> (Z.min x1 x2 <= fst p <= Z.max x1 x2 /\ Z.min y1 y2 <= snd p <= Z.max y1 y2 /\
     2 * Z.abs ((snd p - y1) * (x2 - x1) - (fst p - x1) * (y2 - y1)) <= Z.max (Z.abs (x2 - x1)) (Z.abs (y2 - y1)))%Z).
Definition on_path (path : list (Z * Z)) (x y : nat) : bool := existsb (fun p => (fst p =? Z.of_nat x)%Z && (snd p =? Z.of_nat y)%Z) path.
(** a disc of radius five, not drawn at all when its centre is nearer than five to the left or the upper border *)
Definition disc (px py x y : nat) : bool :=
  (5 <=? px) && (5 <=? py) && ((Z.of_nat x - Z.of_nat px) ^ 2 + (Z.of_nat y - Z.of_nat py) ^ 2 <? 25)%Z.
(** what one match paints *)
Definition stroke (kp1 kp2 : list point) (w1 : nat) (m : (nat * nat) * list Z) (s : (nat -> nat -> bool) * list Z) : Prop :=
  snd s = snd m /\ exists x1 y1 x2 y2 path, nth_error kp1 (fst (fst m)) = Some (x1, y1) /\ nth_error kp2 (snd (fst m)) = Some (x2, y2) /\
    straight path (Z.of_nat x1) (Z.of_nat y1) (Z.of_nat (x2 + w1)) (Z.of_nat y2) /\
    forall x y, fst s x y = on_path path x y || disc x1 y1 x y || disc (x2 + w1) y2 x y.

Lemma to_long_small n : (Z.of_nat n < 2 ^ 63)%Z -> to_long n = Z.of_nat n.
Proof. unfold to_long; cbv zeta; destruct (Z.ltb_spec (Z.of_nat n) (2 ^ 63)); lia. Qed.

Lemma draw_disc sg (im : image (list Z)) w h f px py c : sched_ok sg -> Repr im w h f -> (Z.of_nat (px + 5) < 2 ^ 63)%Z -> (Z.of_nat (py + 5) < 2 ^ 63)%Z ->
  exists o, draw_point sg im px py c 5 = Ok o /\ Repr o w h (fun x y => if disc px py x y then c else f x y).
Proof.
  intros Hs R B1 B2. unfold disc. destruct (Nat.leb_spec 5 px); [destruct (Nat.leb_spec 5 py)|].
  - destruct (C25_draw_point_partial _ sg im w h f px py c 5 Hs R) as (o & E & Ro); auto; try (unfold fits, two64; lia).
    exists o. split; auto.
  - exists im. split; [apply (C25_near_border_nothing_drawn _ sg im w h f); auto|]. eapply Repr_ext; [exact R|]. auto.
  - exists im. split; [apply (C25_near_border_nothing_drawn _ sg im w h f); auto|]. eapply Repr_ext; [exact R|]. auto.
Qed.

Definition small_keypoints (kp1 kp2 : list point) (w1 w2 hmax : nat) (m : nat * nat) : Prop :=
  exists x1 y1 x2 y2, nth_error kp1 (fst m) = Some (x1, y1) /\ nth_error kp2 (snd m) = Some (x2, y2) /\ x1 < w1 /\ x2 < w2 /\ y1 < hmax /\ y2 < hmax.

Lemma draw_match_ok fuel sg kp1 kp2 w1 w2 hmax m c im f : sched_ok sg -> Repr im (w1 + w2) hmax f -> w1 + w2 + hmax <= fuel ->
  (Z.of_nat (w1 + w2 + 5) < 2 ^ 63)%Z -> (Z.of_nat (hmax + 5) < 2 ^ 63)%Z -> small_keypoints kp1 kp2 w1 w2 hmax m ->
  exists o s, draw_match fuel sg kp1 kp2 w1 m c im = Some (Ok o) /\ stroke kp1 kp2 w1 (m, c) s /\
    Repr o (w1 + w2) hmax (fun x y => if fst s x y then snd s else f x y).
Proof.
  intros Hs R F B1 B2 (x1 & y1 & x2 & y2 & N1 & N2 & L1 & L2 & L3 & L4). unfold draw_match, vget. rewrite N1. cbn [bind]. rewrite N2. cbn [bind fst snd].
  rewrite uadd_fits by (unfold fits, two64; lia). rewrite !to_long_small by lia.
  destruct (C23_draw_line _ im (w1 + w2) hmax f (Z.of_nat x1) (Z.of_nat y1) (Z.of_nat (x2 + w1)) (Z.of_nat y2) c fuel R ltac:(lia)) as (path & o1 & E1 & P1 & P2 & P3 & P4 & P5 & R1).
  rewrite E1. cbn [bind].
  destruct (draw_disc sg o1 _ _ _ x1 y1 c Hs R1 ltac:(lia) ltac:(lia)) as (o2 & E2 & R2). rewrite E2. cbn [bind].
  destruct (draw_disc sg o2 _ _ _ (x2 + w1) y2 c Hs R2 ltac:(lia) ltac:(lia)) as (o3 & E3 & R3). rewrite E3.
  exists o3, (fun x y => on_path path x y || disc x1 y1 x y || disc (x2 + w1) y2 x y, c). split; auto. split.
  - split; auto. exists x1, y1, x2, y2, path. split; auto. split; auto. split; auto. repeat split; auto; apply P5 || apply P4 with i; auto.
  - eapply Repr_ext; [exact R3|]. intros x y _ _. cbn [fst snd]. unfold on_path.
    destruct (disc (x2 + w1) y2 x y), (disc x1 y1 x y), (existsb _ path); reflexivity.
Qed.

Lemma draw_each_ok fuel sg kp1 kp2 w1 w2 hmax : sched_ok sg -> w1 + w2 + hmax <= fuel ->
  (Z.of_nat (w1 + w2 + 5) < 2 ^ 63)%Z -> (Z.of_nat (hmax + 5) < 2 ^ 63)%Z -> forall matches im f, Repr im (w1 + w2) hmax f ->
  (forall m, In m matches -> small_keypoints kp1 kp2 w1 w2 hmax (fst m)) ->
  exists o strokes, draw_each fuel sg kp1 kp2 w1 matches im = Some (Ok o) /\ Forall2 (stroke kp1 kp2 w1) matches strokes /\
    Repr o (w1 + w2) hmax (fun x y => fold_left (fun v (s : (nat -> nat -> bool) * list Z) => if fst s x y then snd s else v) strokes (f x y)).
Proof.
  intros Hs F B1 B2. induction matches as [|(m, c) matches IH]; intros im f R K.
  - exists im, []. split; auto.
  - destruct (draw_match_ok fuel sg kp1 kp2 w1 w2 hmax m c im f Hs R F B1 B2 (K _ (or_introl eq_refl))) as (o & s & E & S & Ro).
    destruct (IH o _ Ro (fun m' H => K m' (or_intror H))) as (o' & ss & E' & SS & Ro').
    exists o', (s :: ss). cbn [draw_each]. rewrite E. split; auto.
Qed.

Lemma resize_rgb_ok s sg im w h f height : sched1_ok s -> sched_ok sg -> Repr im w h f -> 0 < w -> 0 < h -> 0 < height ->
  (forall i j, i < w -> j < h -> rgb (f i j)) ->
  exists o, resize_rgb s sg im w height = Ok o /\ Repr o w height (fun x y => f x (y * h / height)).
Proof.
  intros Hs Hg R Hw Hh Hp B. unfold resize_rgb.
  destruct (apply_each3_ReprN s 0%Z [0; 0; 0]%Z (fun p => copyResizeBicubic cubic_z (polate_fin 0 255) 0%Z sg p w height) im [w; h]
    (fun i => f (nth 0 i 0) (nth 1 i 0)) (fun k i => nth k (f (nth 0 i 0) (nth 1 i 0 * h / height)) 0%Z) Hs) with (ds' := [w; height]) as (o & E & Ro).
  - apply Repr_ReprN; auto.
  - cbn; nia.
  - intros i Hi. unfold in_range in Hi. inversion Hi as [|x ? i' ? Hx Hi']; subst. inversion Hi' as [|y ? i'' ? Hy Hi'']; subst. inversion Hi''; subst. cbn [nth].
    apply B; auto.
  - cbn; nia.
  - intros k p Hk (g & Rp & G).
    assert (Q : Repr p w h (fun x y => nth k (f x y) 0%Z)).
    { apply Repr_ReprN. eapply ReprN_ext; [exact Rp|]. intros i Hi. specialize (G i Hi). symmetry. apply nth_error_nth. exact G. }
    destruct (C78_integral_partial 0 255 sg p w h _ w height Hg Q Hw Hh) as (o & E & Ro).
    { intros i j Hi Hj. destruct (B i j Hi Hj) as (L & Bt). rewrite Forall_forall in Bt. assert (In (nth k (f i j) 0%Z) (f i j)) as Hin by (apply nth_In; rewrite L; exact Hk). specialize (Bt _ Hin).
      unfold byte in Bt. lia. }
    exists o. split; auto. apply Repr_ReprN in Ro. eapply ReprN_ext; [exact Ro|]. intros i Hi. cbv beta.
    unfold in_range in Hi. inversion Hi as [|x ? i' ? Hx Hi']; subst. cbn [nth]. rewrite Nat.div_mul by lia. reflexivity.
  - exists o. split; auto. apply Repr_ReprN. eapply ReprN_ext; [exact Ro|]. intros i Hi. cbv beta.
    unfold in_range in Hi. inversion Hi as [|x ? i' ? Hx Hi']; subst. inversion Hi' as [|y ? i'' ? Hy Hi'']; subst. inversion Hi''; subst. cbn [nth].
    symmetry. apply (rgb_nth (f x (y * h / height))). apply B; auto. apply Nat.div_lt_upper_bound; nia.
Qed.

Theorem C122_draw_matches fuel s sg img1 img2 kp1 kp2 matches w1 h1 w2 h2 f1 f2 :
  sched1_ok s -> sched_ok sg -> Repr img1 w1 h1 f1 -> Repr img2 w2 h2 f2 -> 0 < w1 -> 0 < h1 -> 0 < w2 -> 0 < h2 ->
  (forall i j, i < w1 -> j < h1 -> rgb (f1 i j)) -> (forall i j, i < w2 -> j < h2 -> rgb (f2 i j)) ->
  (Z.of_nat (w1 + w2 + 5) < 2 ^ 63)%Z -> (Z.of_nat (Nat.max h1 h2 + 5) < 2 ^ 63)%Z -> w1 + w2 + Nat.max h1 h2 <= fuel ->
  (forall m, In m matches -> small_keypoints kp1 kp2 w1 w2 (Nat.max h1 h2) (fst m)) ->
  let hmax := Nat.max h1 h2 in
  exists o strokes, draw_matches fuel s sg img1 img2 kp1 kp2 matches = Some (Ok o) /\ Forall2 (stroke kp1 kp2 w1) matches strokes /\
    (* side by side, both stretched to the larger height; over them the strokes, one after the other *)
    Repr o (w1 + w2) hmax (fun x y =>
      fold_left (fun v (s : (nat -> nat -> bool) * list Z) => if fst s x y then snd s else v) strokes
        (if x <? w1 then f1 x (y * h1 / hmax) else f2 (x - w1) (y * h2 / hmax))).
Proof.
  intros Hs Hg R1 R2 P1 P2 P3 P4 B1 B2 L1 L2 F K hmax. unfold draw_matches.
  rewrite (get_height_Repr _ _ _ _ R1). cbn [bind]. rewrite (get_height_Repr _ _ _ _ R2). cbn [bind].
  rewrite (get_width_Repr _ _ _ _ R1). cbn [bind]. rewrite (get_width_Repr _ _ _ _ R2). cbn [bind]. fold hmax.
  destruct (resize_rgb_ok s sg img1 w1 h1 f1 hmax Hs Hg R1 P1 P2 ltac:(unfold hmax; lia) B1) as (r1 & E1 & Q1). rewrite E1. cbn [bind].
  destruct (resize_rgb_ok s sg img2 w2 h2 f2 hmax Hs Hg R2 P3 P4 ltac:(unfold hmax; lia) B2) as (r2 & E2 & Q2). rewrite E2. cbn [bind].
  destruct (concat_horizontal2_Repr [0; 0; 0]%Z r1 r2 w1 w2 hmax _ _ Q1 Q2) as (c & Ec & Rc). rewrite Ec. cbn [bind].
  rewrite (get_width_Repr _ _ _ _ Q1). cbn [bind].
  apply (draw_each_ok fuel sg kp1 kp2 w1 w2 hmax); auto.
Qed.
Print Assumptions C122_draw_matches.

(** The keypoints are not stretched with the pictures: the first picture is stretched from eight rows to sixteen, its pixel
    200 in row 6 is shown in rows 12 and 13, but the end of the match at that pixel is painted around row 6. *)
Theorem C122_refuted : exists img1 img2 o,
  at_ img1 [5; 6] = Ok (grey 200) /\ dims img1 = [6; 8] /\ dims img2 = [6; 16] /\
  draw_matches 30 seq0 grid img1 img2 [(5, 6)] [(5, 6)] [((0, 0), [255; 0; 0]%Z)] = Some (Ok o) /\
  map (fun y => at_ o [5; y]) [6; 12; 13] = map Ok [[255; 0; 0]%Z; grey 200; grey 200].
Proof.
  exists (mkImage [6; 8] (repeat (grey 10) 36 ++ repeat (grey 200) 6 ++ repeat (grey 10) 6)), (mkImage [6; 16] (repeat (grey 0) 96)). eexists.
  split; [reflexivity|]. split; [reflexivity|]. split; [reflexivity|]. split; [vm_compute; reflexivity|]. vm_compute. reflexivity.
Qed.
Print Assumptions C122_refuted.

(** Two pictures of seven columns and six rows, one match. *)
Example C122_case : exists o,
  draw_matches 20 seq0 grid (mkImage [7; 6] (repeat (grey 10) 42)) (mkImage [7; 6] (repeat (grey 20) 42)) [(5, 5)] [(5, 5)] [((0, 0), [255; 0; 0]%Z)] = Some (Ok o) /\
  at_ o [5; 5] = Ok [255; 0; 0]%Z /\ at_ o [12; 5] = Ok [255; 0; 0]%Z /\ at_ o [12; 1] = Ok [255; 0; 0]%Z /\
  at_ o [0; 5] = Ok (grey 10) /\ at_ o [12; 0] = Ok (grey 20) /\ small_keypoints [(5, 5)] [(5, 5)] 7 7 6 (0, 0).
Proof.
  eexists. split; [vm_compute; reflexivity|]. do 5 (split; [reflexivity|]). exists 5, 5, 5, 5. repeat split; auto; lia.
Qed.
