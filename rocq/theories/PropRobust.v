(** PropRobust.v - C55, C80: robust estimation and refinement of a homography. *)
From Coq Require Import QArith Qcanon Qround Lia ZifyBool ZifyNat Ring Field Permutation.
From Verif Require Import Base ImageModel ImageFacts BigSum OField LinModel LinProofs PropLin HomModel HomProofs WarpProofs.
Open Scope nat_scope.

(** [samples draws qs rest]: reading the random numbers [draws] from the left, each sample of [qs] is the list of the first
    four different numbers met, the next sample starts behind the fourth of them, and [rest] is not read *)
Lemma firsts_app a b : firsts (a ++ b) = firsts a ++ filter (notin a) (firsts b).
Proof.
  induction a as [|x a IH]; cbn [app firsts].
  - symmetry. induction (firsts b) as [|y l IH]; [reflexivity|]. cbn [filter notin existsb negb]. f_equal; auto.
  - cbn [app]. f_equal. rewrite IH, filter_app, filter_filter. f_equal. apply filter_ext. intros y.
    unfold notin. cbn [existsb]. rewrite Bool.negb_orb. apply Bool.andb_comm.
Qed.

Lemma firsts_more a b : length (firsts a) <= length (firsts (a ++ b)).
Proof. rewrite firsts_app, app_length. lia. Qed.

Definition chunk_ok (c : list nat) : Prop := length (firsts c) = 4 /\ length (firsts (removelast c)) < 4.

Lemma chunk_prefix c l r r' : chunk_ok c -> chunk_ok (c ++ l) -> c ++ r = (c ++ l) ++ r' -> l = [].
Proof.
  intros [C1 C2] [D1 D2] _. destruct l as [|x l]; auto. exfalso.
  rewrite removelast_app in D2 by discriminate. pose proof (firsts_more c (removelast (x :: l))). lia.
Qed.
Lemma chunk_unique c1 c2 r1 r2 : chunk_ok c1 -> chunk_ok c2 -> c1 ++ r1 = c2 ++ r2 -> c1 = c2 /\ r1 = r2.
Proof.
  intros H1 H2 E. assert (c1 = c2) as ->; [|split; auto; apply app_inv_head in E; auto].
  destruct (app_eq_app _ _ _ _ E) as (l & [[-> ->]|[-> ->]]).
  - rewrite (chunk_prefix c2 l (l ++ r1) r1 H2 H1); [rewrite app_nil_r; auto | rewrite app_assoc; auto].
  - rewrite (chunk_prefix c1 l (l ++ r2) r2 H1 H2); [rewrite app_nil_r; auto | rewrite app_assoc; auto].
Qed.

Lemma draw_four_chunk c rest : chunk_ok c -> draw_four [] (c ++ rest) = Some (firsts c, rest).
Proof.
  intros H. destruct (draw_four [] (c ++ rest)) as [[q r]|] eqn:E.
  - destruct (draw_four_samples _ _ _ E) as (c' & E' & -> & A & B). destruct (chunk_unique c c' rest r H (conj A B) E') as [-> ->]. auto.
  - exfalso. apply draw_four_none in E. cbn [app] in E. destruct H as [H _]. pose proof (firsts_more c rest) as M.
    assert (F : filter (notin []) (firsts (c ++ rest)) = firsts (c ++ rest)).
    { generalize (firsts (c ++ rest)) as l. induction l as [|y l IH]; [reflexivity|]. cbn [filter notin existsb negb]. f_equal; auto. }
    rewrite F in E. lia.
Qed.

Lemma samples_unique : forall draws qs rest, samples draws qs rest -> forall qs' rest', samples draws qs' rest' -> length qs = length qs' -> qs = qs' /\ rest = rest'.
Proof.
  induction 1 as [draws|c draws qs rest A B S IH]; intros qs' rest' S' L.
  - inversion S'; subst; auto; cbn in L; lia.
  - inversion S' as [|c' draws' qs'' rest'' A' B' S'' E1]; subst; cbn in L; [lia|].
    destruct (chunk_unique c' c draws' draws (conj A' B') (conj A B) E1) as [-> ->].
    destruct (IH qs'' rest' S'') as [-> ->]; [lia|]. auto.
Qed.

Lemma samples_enough K eps solve scorer kp1 kp2 matches thr : forall draws qs rest, samples draws qs rest -> 4 <= length matches -> forall st,
  robust_loop K eps solve scorer kp1 kp2 matches thr (length qs) draws st <> None.
Proof.
  induction 1 as [draws|c draws qs rest A B S IH]; intros Hm st; cbn [length robust_loop]; [discriminate|].
  replace (length matches <? 4) with false by (symmetry; apply Nat.ltb_ge; lia).
  rewrite draw_four_chunk by (split; auto). destruct (try_sample K eps solve scorer kp1 kp2 matches thr (firsts c) st); try discriminate. auto.
Qed.

(** the cost of a 3 x 3 matrix: the sum over the matches of the scorer applied to the squared distance between the projection
    of the first point and the second point, or to the squared threshold where the denominator is below eps *)
Definition cost {K : ofield} (eps : K) scorer (kp1 kp2 : list point) (matches : list (nat * nat)) (thr_sq : K) (f : nat -> nat -> K) : K :=
  fold_right (fun m c =>
    let p := nth (fst m) kp1 (0, 0) in let q := nth (snd m) kp2 (0, 0) in
    let px := fnat K (fst p) in let py := fnat K (snd p) in
    let w := lin K f 2 px py in
    let dx := fsub (fdiv (lin K f 0 px py) w) (fnat K (fst q)) in
    let dy := fsub (fdiv (lin K f 1 px py) w) (fnat K (snd q)) in
    fadd (scorer (if fltb (fabs w) eps then thr_sq else fadd (fmul dx dx) (fmul dy dy)) thr_sq) c) f0 matches.

(** the matrix computed from the four matches of a sample *)
Definition candidate {K : ofield} (eps : K) solve (kp1 kp2 : list point) (matches : list (nat * nat)) (q : list nat) (H : matrix K) : Prop :=
  compute_homography K eps solve
    (map (fun i => let m := nth i matches (0, 0) in (nth (fst m) kp1 (0, 0), nth (snd m) kp2 (0, 0))) q) (mat_new f0 3 3) = Ok (true, H).

(** C55: the result is the first candidate of least cost, if that is below the largest number, else the 3 x 3 zero matrix *)
Theorem C55_best :
  forall (K : ofield) (eps big : K) solve scorer kp1 kp2 matches draws iterations thr qs rest,
  4 <= length matches -> (forall m, In m matches -> fst m < length kp1 /\ snd m < length kp2) ->
  (forall d, In d draws -> d < length matches) ->
  (forall points A, dlt_matrix K points = Ok A -> exists h, solve A = Ok h) ->
  samples draws qs rest -> length qs = Z.to_nat iterations ->
  let price f := cost eps scorer kp1 kp2 matches (fmul thr thr) f in
  let cand := candidate eps solve kp1 kp2 matches in
  exists H, find_homography_robust K eps big solve scorer kp1 kp2 matches draws iterations thr = Some (Ok H) /\
  ((exists k f, k < length qs /\ cand (nth k qs []) H /\ MRepr H 3 3 f /\ fltb (price f) big = true /\
      (forall k' H' f', k' < k -> cand (nth k' qs []) H' -> MRepr H' 3 3 f' -> fltb (price f) (price f') = true) /\
      (forall k' H' f', k' < length qs -> cand (nth k' qs []) H' -> MRepr H' 3 3 f' -> fltb (price f') (price f) = false)) \/
   (H = mat_new f0 3 3 /\ forall k H' f', k < length qs -> cand (nth k qs []) H' -> MRepr H' 3 3 f' -> fltb (price f') big = false)).
Proof.
  intros K eps big solve scorer kp1 kp2 matches draws iterations thr qs rest H4 Hm Hd Hs S L price cand.
  destruct (robust_loop_ok K eps solve scorer kp1 kp2 matches (fmul thr thr) Hm Hs (Z.to_nat iterations) draws (mat_new f0 3 3, big) H4 Hd)
    as [N|(qs' & rest' & [H c] & S' & L' & E & B1 & B2)].
  - exfalso. rewrite <- L in N. revert N. eapply samples_enough; eauto.
  - destruct (samples_unique _ _ _ S _ _ S') as [<- <-]; [lia|]. exists H. unfold find_homography_robust. rewrite E. cbn [bind fst snd] in *.
    split; auto. destruct B2 as [X|(k & H1 & f & Hk & C & M & X & B & P)]; injection X as -> ->.
    + right. split; auto. intros k H' f' Hk C M. apply (B1 (nth k qs []) H' f'); auto. apply nth_In; auto.
    + left. exists k, f. split; auto. split; [exact C|]. split; auto. split; [exact B|]. split.
      * intros k' H' f' Hk' C' M'. apply (P k' H' f'); auto.
      * intros k' H' f' Hk' C' M'. apply (B1 (nth k' qs []) H' f'); auto. apply nth_In; auto.
Qed.
Print Assumptions C55_best.

(** C55: fewer than four matches give the zero matrix, whatever the random numbers *)
Theorem C55_few :
  forall (K : ofield) (eps big : K) solve scorer kp1 kp2 matches draws iterations thr, length matches < 4 ->
  find_homography_robust K eps big solve scorer kp1 kp2 matches draws iterations thr = Some (Ok (mat_new f0 3 3)).
Proof.
  intros K eps big solve scorer kp1 kp2 matches draws iterations thr L. unfold find_homography_robust.
  assert (E : forall n st, robust_loop K eps solve scorer kp1 kp2 matches (fmul thr thr) n draws st = Some (Ok st)).
  { induction n as [|n IH]; intros st; cbn [robust_loop]; auto.
    replace (length matches <? 4) with true by (symmetry; apply Nat.ltb_lt; lia). auto. }
  rewrite E. reflexivity.
Qed.
Print Assumptions C55_few.

(** C55: each sample has four different matches, all of them drawn *)
Theorem C55_samples :
  forall draws qs rest, samples draws qs rest -> forall q, In q qs -> length q = 4 /\ NoDup q /\ (forall i, In i q -> In i draws).
Proof.
  induction 1 as [draws|c draws qs rest A B S IH]; intros q [].
  - subst q. split; auto. split; [apply firsts_NoDup|]. intros i Hi. apply in_or_app; left. apply (proj1 (firsts_in _ _)); auto.
  - destruct (IH q H) as (X & Y & Z). split; auto. split; auto. intros i Hi. apply in_or_app; right; auto.
Qed.
Print Assumptions C55_samples.

(** a match is an inlier: its first point has a denominator not below eps and is projected to within the threshold *)
Definition inlier {K : ofield} (eps : K) (kp1 kp2 : list point) (thr_sq : K) (f : nat -> nat -> K) (m : nat * nat) : bool :=
  let p := nth (fst m) kp1 (0, 0) in let q := nth (snd m) kp2 (0, 0) in
  let px := fnat K (fst p) in let py := fnat K (snd p) in
  let w := lin K f 2 px py in
  let dx := fsub (fdiv (lin K f 0 px py) w) (fnat K (fst q)) in
  let dy := fsub (fdiv (lin K f 1 px py) w) (fnat K (snd q)) in
  negb (fltb (fabs w) eps) && fltb (fadd (fmul dx dx) (fmul dy dy)) thr_sq.

(** C55: with the RANSAC scorer the cost is the number of matches that are not inliers *)
Theorem C55_ransac :
  forall (K : ofield) (eps : K) kp1 kp2 matches thr_sq f,
  cost eps (ransac_scorer K) kp1 kp2 matches thr_sq f = fnat K (length (filter (fun m => negb (inlier eps kp1 kp2 thr_sq f m)) matches)).
Proof.
  intros K eps kp1 kp2 matches thr_sq f. pose proof (F_R (f_field K)) as FR. induction matches as [|m l IH]; [reflexivity|].
  unfold cost in *. cbn [fold_right filter]. rewrite IH. unfold inlier at 2. cbv zeta.
  destruct (fltb (fabs _) eps); cbn [negb andb]; unfold ransac_scorer at 1.
  - rewrite f_irrefl. cbn [length fnat]. apply (Radd_comm FR).
  - destruct (fltb _ thr_sq); cbn [negb length fnat]; [apply (Radd_0_l FR)|apply (Radd_comm FR)].
Qed.
Print Assumptions C55_ransac.

(** C80: refinement uses exactly the inliers of the initial matrix *)
Theorem C80_refine :
  forall (K : ofield) (eps : K) solve kp1 kp2 matches H f thr, MRepr H 3 3 f ->
  (forall m, In m matches -> fst m < length kp1 /\ snd m < length kp2) ->
  let inliers := map (fun m => (nth (fst m) kp1 (0, 0), nth (snd m) kp2 (0, 0))) (filter (inlier eps kp1 kp2 (fmul thr thr) f) matches) in
  refine_homography K eps solve kp1 kp2 matches H thr =
    if length inliers <? 4 then Ok H
    else match compute_homography K eps solve inliers (mat_new f0 3 3) with
         | Ok (true, R) => Ok R
         | Ok (false, _) => Ok H
         | Throw e => Throw e
         | UB => UB
         end.
Proof.
  intros K eps solve kp1 kp2 matches H f thr MH Hm inliers. unfold refine_homography. rewrite (mat_empty3 K H f MH).
  match goal with |- (let* r := for_list matches ?bd [] in _) = _ =>
    assert (G : forall l acc, (forall m, In m l -> fst m < length kp1 /\ snd m < length kp2) ->
      for_list l bd acc = Ok (acc ++ map (fun m => (nth (fst m) kp1 (0, 0), nth (snd m) kp2 (0, 0))) (filter (inlier eps kp1 kp2 (fmul thr thr) f) l))) end.
  { induction l as [|m l IH]; intros acc Hl; [cbn [for_list filter map]; rewrite app_nil_r; auto|].
    cbn [for_list]. destruct (Hl m (or_introl eq_refl)) as [A B]. unfold match_points at 1.
    rewrite (@vget_nth_d point (0, 0) kp1 _ A), (@vget_nth_d point (0, 0) kp2 _ B); cbn [bind fst snd].
    rewrite (linear_form_ok K H f 2) by auto; cbn [bind].
    cbn [filter]. unfold inlier at 1. cbv zeta. unfold lin at 1 2 3.
    destruct (fltb (fabs _) eps); cbn [negb andb].
    - cbn [bind]. apply IH. intros; apply Hl; right; auto.
    - rewrite (linear_form_ok K H f 0) by auto; cbn [bind]. rewrite (linear_form_ok K H f 1) by auto; cbn [bind].
      rewrite IH by (intros; apply Hl; right; auto).
      destruct (fltb _ (fmul thr thr)); auto. rewrite <- app_assoc. reflexivity. }
  rewrite G by auto. cbn [bind app]. fold inliers. change (@length (point * point) inliers) with (length inliers). destruct (length inliers <? 4); auto.
  destruct (compute_homography K eps solve inliers (mat_new f0 3 3)) as [[[|] R]| |]; reflexivity.
Qed.
Print Assumptions C80_refine.

(** C80: an empty matrix is returned as it is *)
Theorem C80_empty :
  forall (K : ofield) (eps : K) solve kp1 kp2 matches H thr, mat_empty H = true -> refine_homography K eps solve kp1 kp2 matches H thr = Ok H.
Proof. intros. unfold refine_homography. rewrite H0. auto. Qed.
Print Assumptions C80_empty.

(** ** cases *)
Definition ex_solve (A : matrix Qcfield) : res (list Qcfield) := Ok (map (fun z => Q2Qc (inject_Z z) : Qcfield) [1; 0; 2; 0; 1; 0; 0; 0; 1]%Z).
Definition ex_kp1 : list point := [(0, 0); (4, 0); (0, 4); (4, 4); (2, 1)].
Definition ex_kp2 : list point := [(2, 0); (6, 0); (2, 4); (6, 4); (9, 9)].
Definition ex_matches : list (nat * nat) := [(0, 0); (1, 1); (2, 2); (3, 3); (4, 4)].
(** one outlier among five matches: the estimate is the translation by (2, 0), and refinement keeps four inliers *)
Example C55_case :
  samples [0; 1; 1; 2; 3; 4; 0; 1; 2] [[0; 1; 2; 3]; [4; 0; 1; 2]] [] /\
  exists H, find_homography_robust Qcfield (qc 1 1000) (qc 1000 1) ex_solve (ransac_scorer Qcfield) ex_kp1 ex_kp2 ex_matches
    [0; 1; 1; 2; 3; 4; 0; 1; 2] 2 (qc 2 1) = Some (Ok H) /\
  map (fun q : Qcfield => Qnum (this (q : Qc))) (data H) = [1; 0; 2; 0; 1; 0; 0; 0; 1]%Z /\
  refine_homography Qcfield (qc 1 1000) ex_solve ex_kp1 ex_kp2 ex_matches H (qc 2 1) = Ok H.
Proof.
  split.
  - apply (samples_cons [0; 1; 1; 2; 3] [4; 0; 1; 2]); [reflexivity|cbn; lia|].
    apply (samples_cons [4; 0; 1; 2] []); [reflexivity|cbn; lia|constructor].
  - eexists. split; [vm_compute; reflexivity|]. split; vm_compute; reflexivity.
Qed.
