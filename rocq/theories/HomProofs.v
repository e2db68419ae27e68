(** HomProofs.v - facts about homographies, their robust estimation, warping and stitching. *)
From Coq Require Import QArith Qcanon Qround Lia ZifyBool ZifyNat Ring Field Permutation.
From Verif Require Import Base ImageModel ImageFacts PixelModel PixelProofs BigSum OField LinModel LinProofs PropLin InterpModel HomModel.
Open Scope nat_scope.

Lemma vget_nth_d {A} (d : A) l k : k < length l -> vget l k = Ok (nth k l d).
Proof. intros H. apply vget_ok, nth_error_nth'; auto. Qed.

Section Hom.
  Variable K : ofield.
  Add Field KF : (f_field K).
  Open Scope field_scope.
  Notation fn := (fnat K).

  Lemma fnat_nonneg n : (fn n <? 0) = false.
  Proof.
    induction n as [|n IH]; [apply f_irrefl|]. cbn [fnat].
    pose proof (f_add_lt K _ _ (fn n) (f_1_pos K)) as H. replace (0 + fn n) with (fn n) in H by ring.
    replace (1 + fn n) with (fn n + 1) in H by ring.
    apply f_asym. eapply f_le_lt; eauto.
  Qed.
  Lemma fnat_pos n : (0 < n)%nat -> (0 <? fn n) = true.
  Proof.
    destruct n as [|n]; [lia|]. intros _. cbn [fnat].
    pose proof (f_add_lt K _ _ (fn n) (f_1_pos K)) as H. replace (0 + fn n) with (fn n) in H by ring.
    replace (1 + fn n) with (fn n + 1) in H by ring.
    apply (f_le_lt K 0 (fn n)); [apply fnat_nonneg | exact H].
  Qed.
  Lemma fnat_neq0 n : (0 < n)%nat -> fn n <> 0.
  Proof. intros H E. apply fnat_pos in H. rewrite E, f_irrefl in H. discriminate. Qed.

  Lemma mat_set_row_ok (m : matrix K) r c f row vs : MRepr m r c f -> (row < r)%nat -> length vs = c ->
    exists m', mat_set_row K m row vs = Ok m' /\ MRepr m' r c (fun i j => if (i =? row)%nat then nth j vs 0 else f i j).
  Proof.
    intros HM Hr Hc. unfold mat_set_row.
    assert (G : forall (vs : list K) a m f, MRepr m r c f -> (a + length vs <= c)%nat ->
      exists m', for_list (combine (seq a (length vs)) vs) (fun cv m => mat_set m row (fst cv) (snd cv)) m = Ok m' /\
        MRepr m' r c (fun i j => if (i =? row)%nat && (a <=? j)%nat && (j <? a + length vs)%nat then nth (j - a) vs 0 else f i j)).
    { clear m f HM Hc vs. induction vs as [|v vs IH]; intros a m f HM Hc.
      - exists m; split; auto. eapply MRepr_ext; eauto. intros i j _ _; cbn [length].
        destruct (i =? row)%nat; cbn [andb]; auto.
        destruct (Nat.leb_spec a j); destruct (Nat.ltb_spec j (a + 0)); cbn [andb]; auto; lia.
      - cbn [length seq combine for_list fst snd] in *.
        destruct (mat_set_ok m r c f row a v HM Hr) as (m1 & E1 & M1); [lia|]. rewrite E1; cbn [bind].
        destruct (IH (S a) m1 _ M1) as (m' & E & M'); [lia|]. exists m'; split; auto.
        eapply MRepr_ext; eauto. intros i j _ _. cbn beta. unfold fset.
        destruct (i =? row)%nat eqn:Er; cbn [andb]; auto.
        destruct (Nat.eq_dec j a) as [->|Nj].
        + replace (S a <=? a)%nat with false by (symmetry; apply Nat.leb_gt; lia). cbn [andb].
          rewrite Nat.eqb_refl, Nat.leb_refl. replace (a <? a + S (length vs))%nat with true by (symmetry; apply Nat.ltb_lt; lia).
          cbn [andb]. rewrite Nat.sub_diag; auto.
        + replace (j =? a)%nat with false by (symmetry; apply Nat.eqb_neq; lia).
          replace (a <=? j)%nat with (S a <=? j)%nat by (destruct (Nat.leb_spec (S a) j), (Nat.leb_spec a j); lia).
          replace (j <? a + S (length vs))%nat with (j <? S a + length vs)%nat by (f_equal; lia).
          destruct (Nat.leb_spec (S a) j); cbn [andb]; auto.
          replace (j - a)%nat with (S (j - S a))%nat by lia; auto. }
    destruct (G vs 0%nat m f HM ltac:(lia)) as (m' & E & M'). exists m'; split; auto.
    eapply MRepr_ext; eauto. intros i j _ Hj. cbn beta. replace (j - 0)%nat with j by lia.
    replace (j <? 0 + length vs)%nat with true by (symmetry; apply Nat.ltb_lt; lia).
    destruct (i =? row)%nat; auto.
  Qed.

  (** the two rows of a correspondence *)
  Definition dlt_row (pq : point * point) (second : bool) : list K :=
    let x1 := fn (fst (fst pq)) in let y1 := fn (snd (fst pq)) in
    let x2 := fn (fst (snd pq)) in let y2 := fn (snd (snd pq)) in
    if second then [0; 0; 0; - x1; - y1; - (1); y2 * x1; y2 * y1; y2]
    else [- x1; - y1; - (1); 0; 0; 0; x2 * x1; x2 * y1; x2].

  Definition dlt_fun (points : list (point * point)) (i j : nat) : K :=
    nth j (dlt_row (nth (i / 2) points ((0, 0), (0, 0)))%nat (i mod 2 =? 1)%nat) 0.

  Lemma dlt_matrix_ok points : exists A, dlt_matrix K points = Ok A /\ MRepr A (2 * length points)%nat 9 (dlt_fun points).
  Proof.
    unfold dlt_matrix.
    destruct (for_range_inv (length points)
      (fun k (A : matrix K) => MRepr A (2 * length points)%nat 9 (fun i j => if (i <? 2 * k)%nat then dlt_fun points i j else 0))
      (fun i A =>
      let* pq := vget points i in
      let x1 := fn (fst (fst pq)) in
      let y1 := fn (snd (fst pq)) in
      let x2 := fn (fst (snd pq)) in
      let y2 := fn (snd (snd pq)) in
      let* A := mat_set_row K A (2 * i) [- x1; - y1; - (1); 0; 0; 0; x2 * x1; x2 * y1; x2] in
      mat_set_row K A (2 * i + 1) [0; 0; 0; - x1; - y1; - (1); y2 * x1; y2 * y1; y2]) (mat_new 0 (2 * length points)%nat 9)) as (A & E & HA).
    - eapply MRepr_ext; [apply mat_new_MRepr|]. intros i j _ _; auto.
    - intros k A Hk HA. cbv beta.
      rewrite (@vget_nth_d (point * point) ((0, 0), (0, 0))%nat points k Hk); cbn [bind].
      set (pq := nth k points ((0, 0), (0, 0))%nat).
      destruct (mat_set_row_ok A _ 9 _ (2 * k) (dlt_row pq false) HA) as (A1 & E1 & H1); [lia|reflexivity|].
      unfold dlt_row at 1 in E1; cbn beta zeta iota in E1. rewrite E1; cbn [bind].
      destruct (mat_set_row_ok A1 _ 9 _ (2 * k + 1) (dlt_row pq true) H1) as (A2 & E2 & H2); [lia|reflexivity|].
      exists A2; split; [exact E2|].
      eapply MRepr_ext; eauto. intros i j Hi Hj; cbn beta.
      destruct (Nat.eqb_spec i (2 * k + 1)) as [->|N1].
      { replace (2 * k + 1 <? 2 * S k)%nat with true by (symmetry; apply Nat.ltb_lt; lia). unfold dlt_fun.
        replace ((2 * k + 1) / 2)%nat with k by (apply (Nat.div_unique _ 2 k 1); lia).
        replace ((2 * k + 1) mod 2)%nat with 1%nat by (apply (Nat.mod_unique _ 2 k 1); lia). reflexivity. }
      destruct (Nat.eqb_spec i (2 * k)) as [->|N2].
      { replace (2 * k <? 2 * S k)%nat with true by (symmetry; apply Nat.ltb_lt; lia). unfold dlt_fun.
        replace ((2 * k) / 2)%nat with k by (apply (Nat.div_unique _ 2 k 0); lia).
        replace ((2 * k) mod 2)%nat with 0%nat by (apply (Nat.mod_unique _ 2 k 0); lia). reflexivity. }
      destruct (Nat.ltb_spec i (2 * k)); destruct (Nat.ltb_spec i (2 * S k)); auto; lia.
    - exists A; split; [exact E|]. eapply MRepr_ext; eauto. intros i j Hi _; cbn beta.
      replace (i <? 2 * length points)%nat with true by (symmetry; apply Nat.ltb_lt; lia). auto.
  Qed.

  Lemma linear_form_ok (H : matrix K) f r x y : MRepr H 3 3 f -> (r < 3)%nat ->
    linear_form K H r x y = Ok (f r 0%nat * x + f r 1%nat * y + f r 2%nat).
  Proof.
    intros HH Hr. unfold linear_form. do 3 (rewrite (mat_at_ok _ _ _ _ _ _ HH) by lia; cbn [bind]). auto.
  Qed.

  Lemma mat_empty3 (H : matrix K) f : MRepr H 3 3 f -> mat_empty H = false.
  Proof. intros (E1 & E2 & _). unfold mat_empty. rewrite E1, E2. auto. Qed.

  (** ** compute_homography *)
  Section Compute.
    Variable eps : K.
    Variable solve : matrix K -> res (list K).

    Lemma divide_ok (h : list K) s : length h = 9%nat ->
      exists H, for_range 3 (fun i H => for_range 3 (fun j H =>
            let* v := vget h (i * 3 + j) in mat_set H i j (v / s)) H) (mat_new (0 : K) 3 3) = Ok H /\
        MRepr H 3 3 (fun i j => nth (i * 3 + j) h 0 / s).
    Proof.
      intros L.
      apply (mfill_grid (0 : K) 3 3 (fun p => p) (fun y x => nth (y * 3 + x) h 0 / s)
        (fun i j H => let* v := vget h (i * 3 + j) in mat_set H i j (v / s)) 3 3 (fun i j => nth (i * 3 + j) h 0 / s)).
      - intros y x m f Hy Hx _. rewrite (vget_nth_d 0 h (y * 3 + x)) by (rewrite L; lia). reflexivity.
      - intros y x Hy Hx. auto.
      - intros a b Ha Hb. exists a, b; auto.
    Qed.

    (** the outcome, given what the solver returns *)
    Lemma compute_homography_ok points H A h : dlt_matrix K points = Ok A -> solve A = Ok h -> length h = 9%nat -> (4 <= length points)%nat ->
      exists H', (fabs (nth 8 h 0) <? eps = false -> MRepr H' 3 3 (fun i j => nth (i * 3 + j) h 0 / nth 8 h 0)) /\
        (fabs (nth 8 h 0) <? eps = true -> H' = mat_new 0 3 3) /\
        compute_homography K eps solve points H = Ok (negb (fabs (nth 8 h 0) <? eps), H').
    Proof.
      intros EA Eh L Hn. unfold compute_homography.
      replace (length points <? 4)%nat with false by (symmetry; apply Nat.ltb_ge; lia).
      rewrite EA; cbn [bind]. rewrite Eh; cbn [bind]. rewrite L; cbn [Nat.eqb orb negb].
      rewrite (vget_nth_d 0 h 8) by lia; cbn [bind].
      destruct (fabs (nth 8 h 0) <? eps) eqn:E.
      - exists (mat_new 0 3 3). repeat split; auto; discriminate.
      - destruct (divide_ok h (nth 8 h 0) L) as (H' & E' & M'). rewrite E'; cbn [bind].
        exists H'; repeat split; auto; try discriminate; apply M'.
    Qed.

    Lemma compute_homography_few points H : (length points < 4)%nat -> compute_homography K eps solve points H = Ok (false, H).
    Proof. intros L. unfold compute_homography. replace (length points <? 4)%nat with true by (symmetry; apply Nat.ltb_lt; lia). auto. Qed.

    (** a successful call *)
    Lemma compute_homography_true points H H' : compute_homography K eps solve points H = Ok (true, H') ->
      exists A h, (4 <= length points)%nat /\ dlt_matrix K points = Ok A /\ solve A = Ok h /\ length h = 9%nat /\
        fabs (nth 8 h 0) <? eps = false /\ MRepr H' 3 3 (fun i j => nth (i * 3 + j) h 0 / nth 8 h 0).
    Proof.
      intros E. destruct (Nat.lt_ge_cases (length points) 4) as [L|L]; [rewrite compute_homography_few in E by auto; discriminate|].
      destruct (dlt_matrix_ok points) as (A & EA & _).
      pose proof E as E0. unfold compute_homography in E0.
      replace (length points <? 4)%nat with false in E0 by (symmetry; apply Nat.ltb_ge; lia).
      rewrite EA in E0; cbn [bind] in E0. destruct (solve A) as [h| |] eqn:Eh; cbn [bind] in E0; try discriminate.
      destruct (Nat.eqb_spec (length h) 9) as [L9|N9]; [|rewrite orb_true_r in E0; discriminate].
      destruct (compute_homography_ok points H A h EA Eh L9 L) as (H2 & M & _ & E2).
      rewrite E in E2. destruct (fabs (nth 8 h 0) <? eps) eqn:F; [discriminate|]. injection E2 as <-.
      exists A, h; auto 8.
    Qed.
  End Compute.

  (** ** the robust estimator *)
  (** first occurrences, in order *)
  Fixpoint firsts (l : list nat) : list nat :=
    match l with [] => [] | x :: l => x :: filter (fun y => negb (y =? x)%nat) (firsts l) end.

  Definition notin (acc : list nat) (y : nat) : bool := negb (existsb (Nat.eqb y) acc).

  Lemma filter_filter {A} (p q : A -> bool) l : filter p (filter q l) = filter (fun x => q x && p x) l.
  Proof. induction l as [|a l IH]; cbn; auto. destruct (q a) eqn:E; cbn; [destruct (p a); rewrite IH; auto|auto]. Qed.

  Lemma draw_four_spec : forall draws acc q rest, (length acc <= 4)%nat -> draw_four acc draws = Some (q, rest) ->
    exists chunk, draws = chunk ++ rest /\ q = acc ++ filter (notin acc) (firsts chunk) /\ length q = 4%nat /\
      (chunk = [] \/ (length (acc ++ filter (notin acc) (firsts (removelast chunk))) < 4)%nat).
  Proof.
    induction draws as [|d draws IH]; intros acc q rest La E; cbn [draw_four] in E.
    - destruct (Nat.ltb_spec (length acc) 4); [discriminate|]. injection E as <- <-.
      exists []. cbn. rewrite app_nil_r. repeat split; auto; lia.
    - destruct (Nat.ltb_spec (length acc) 4) as [L|L].
      2: { injection E as <- <-. exists []. cbn. rewrite app_nil_r. repeat split; auto; lia. }
      destruct (existsb (Nat.eqb d) acc) eqn:Ed.
      + destruct (IH acc q rest La E) as (c & -> & Eq & Lq & M). exists (d :: c).
        assert (F : forall l, filter (notin acc) (firsts (d :: l)) = filter (notin acc) (firsts l)).
        { intros l. cbn [firsts filter]. replace (notin acc d) with false by (unfold notin; rewrite Ed; auto).
          rewrite filter_filter. apply filter_ext_in. intros y _. destruct (Nat.eqb_spec y d) as [->|]; cbn [negb andb]; auto.
          unfold notin; rewrite Ed; auto. }
        split; [auto|]. rewrite F. split; auto. split; auto. right.
        destruct c as [|c0 c]; [cbn; rewrite app_nil_r; auto|].
        change (removelast (d :: c0 :: c)) with (d :: removelast (c0 :: c)). rewrite F.
        destruct M as [M|M]; [discriminate|auto].
      + assert (Ln : (length (acc ++ [d]) <= 4)%nat) by (rewrite app_length; cbn; lia).
        destruct (IH (acc ++ [d]) q rest Ln E) as (c & -> & Eq & Lq & M). exists (d :: c).
        assert (F : forall l, acc ++ filter (notin acc) (firsts (d :: l)) = (acc ++ [d]) ++ filter (notin (acc ++ [d])) (firsts l)).
        { intros l. cbn [firsts filter]. replace (notin acc d) with true by (unfold notin; rewrite Ed; auto).
          rewrite <- app_assoc. cbn [app]. do 2 f_equal. rewrite filter_filter. apply filter_ext. intros y.
          unfold notin. rewrite existsb_app. cbn [existsb]. rewrite orb_false_r, negb_orb. apply andb_comm. }
        split; [auto|]. rewrite F. split; auto. split; auto. right.
        destruct c as [|c0 c]; [cbn; rewrite app_nil_r; auto|].
        change (removelast (d :: c0 :: c)) with (d :: removelast (c0 :: c)). rewrite F.
        destruct M as [M|M]; [discriminate|auto].
  Qed.

  Lemma draw_four_none : forall draws acc, draw_four acc draws = None ->
    (length (acc ++ filter (notin acc) (firsts draws)) < 4)%nat.
  Proof.
    induction draws as [|d draws IH]; intros acc E; cbn [draw_four] in E.
    - destruct (Nat.ltb_spec (length acc) 4); [|discriminate]. cbn. rewrite app_nil_r; auto.
    - destruct (Nat.ltb_spec (length acc) 4) as [L|L]; [|discriminate].
      specialize (IH _ E). destruct (existsb (Nat.eqb d) acc) eqn:Ed.
      + cbn [firsts filter]. replace (notin acc d) with false by (unfold notin; rewrite Ed; auto).
        rewrite filter_filter. erewrite filter_ext_in; eauto. intros y _. cbn beta.
        destruct (Nat.eqb_spec y d) as [->|]; cbn [negb andb]; auto. unfold notin; rewrite Ed; auto.
      + cbn [firsts filter]. replace (notin acc d) with true by (unfold notin; rewrite Ed; auto).
        rewrite <- app_assoc in IH. cbn [app] in IH. rewrite filter_filter.
        erewrite filter_ext; eauto. intros y. cbn beta.
        unfold notin. rewrite existsb_app. cbn [existsb]. rewrite orb_false_r, negb_orb. apply andb_comm.
  Qed.

  Lemma firsts_in l x : In x (firsts l) <-> In x l.
  Proof.
    induction l as [|a l IH]; cbn [firsts In]; [tauto|]. rewrite filter_In, IH.
    destruct (Nat.eqb_spec x a); cbn [negb]; intuition (subst; auto; discriminate).
  Qed.
  Lemma firsts_NoDup l : NoDup (firsts l).
  Proof.
    induction l as [|a l IH]; cbn [firsts]; constructor; [|apply NoDup_filter; auto].
    rewrite filter_In, Nat.eqb_refl. cbn; intros (_ & X); discriminate.
  Qed.

  (** [qs] are the successive samples: each is the first occurrences of a shortest chunk of draws with four different values *)
  Inductive samples : list nat -> list (list nat) -> list nat -> Prop :=
  | samples_nil draws : samples draws [] draws
  | samples_cons chunk draws qs rest : length (firsts chunk) = 4%nat -> (length (firsts (removelast chunk)) < 4)%nat ->
      samples draws qs rest -> samples (chunk ++ draws) (firsts chunk :: qs) rest.

  Lemma draw_four_samples draws q rest : draw_four [] draws = Some (q, rest) ->
    exists chunk, draws = chunk ++ rest /\ q = firsts chunk /\ length (firsts chunk) = 4%nat /\ (length (firsts (removelast chunk)) < 4)%nat.
  Proof.
    intros E. destruct (draw_four_spec draws [] q rest (Nat.le_0_l 4) E) as (c & -> & Eq & L & M).
    assert (F : forall l, filter (notin []) l = l) by (induction l as [|a l IH]; cbn in *; congruence).
    cbn [app] in *. rewrite F in *. exists c. rewrite <- Eq. repeat split; auto.
    destruct M as [->|M]; [cbn; lia|auto].
  Qed.

  Section Robust.
    Variables eps big : K.
    Variable solve : matrix K -> res (list K).
    Variable scorer : K -> K -> K.
    Variables (kp1 kp2 : list point) (matches : list (nat * nat)) (thr : K).

    (** squared reprojection error under the coefficients [f] *)
    Definition denominator (f : nat -> nat -> K) (p : point) : K := f 2%nat 0%nat * fn (fst p) + f 2%nat 1%nat * fn (snd p) + f 2%nat 2%nat.
    Definition error_sq (f : nat -> nat -> K) (p q : point) : K :=
      let w := denominator f p in
      let dx := (f 0%nat 0%nat * fn (fst p) + f 0%nat 1%nat * fn (snd p) + f 0%nat 2%nat) / w - fn (fst q) in
      let dy := (f 1%nat 0%nat * fn (fst p) + f 1%nat 1%nat * fn (snd p) + f 1%nat 2%nat) / w - fn (snd q) in
      dx * dx + dy * dy.
    Definition match_cost (f : nat -> nat -> K) (m : nat * nat) : K :=
      let p := nth (fst m) kp1 (0, 0)%nat in let q := nth (snd m) kp2 (0, 0)%nat in
      scorer (if fabs (denominator f p) <? eps then thr else error_sq f p q) thr.
    Definition total_cost (f : nat -> nat -> K) : K := fold_right (fun m c => match_cost f m + c) 0 matches.

    Hypothesis Hm : forall m, In m matches -> (fst m < length kp1)%nat /\ (snd m < length kp2)%nat.

    Lemma match_points_ok m : In m matches -> match_points kp1 kp2 m = Ok (nth (fst m) kp1 (0, 0)%nat, nth (snd m) kp2 (0, 0)%nat).
    Proof.
      intros H. destruct (Hm m H) as (A & B). unfold match_points.
      rewrite (@vget_nth_d point (0, 0)%nat kp1 _ A); cbn [bind]. rewrite (@vget_nth_d point (0, 0)%nat kp2 _ B); cbn [bind]. auto.
    Qed.

    Lemma reproject_ok H f p q : MRepr H 3 3 f ->
      reproject K eps H thr p q = Ok (if fabs (denominator f p) <? eps then thr else error_sq f p q).
    Proof.
      intros HH. unfold reproject. rewrite (linear_form_ok H f 2) by auto; cbn [bind].
      change (f 2%nat 0%nat * fn (fst p) + f 2%nat 1%nat * fn (snd p) + f 2%nat 2%nat) with (denominator f p).
      destruct (fabs (denominator f p) <? eps); auto.
      rewrite (linear_form_ok H f 0) by auto; cbn [bind]. rewrite (linear_form_ok H f 1) by auto; cbn [bind]. auto.
    Qed.

    Lemma model_cost_ok H f : MRepr H 3 3 f -> model_cost K eps scorer kp1 kp2 matches thr H = Ok (total_cost f).
    Proof.
      intros HH. unfold model_cost, total_cost.
      assert (G : forall l c, (forall m, In m l -> In m matches) -> for_list l (fun m cost =>
        let* pq := match_points kp1 kp2 m in
        let* d := reproject K eps H thr (fst pq) (snd pq) in
        Ok (cost + scorer d thr)) c = Ok (c + fold_right (fun m c => match_cost f m + c) 0 l)).
      { induction l as [|m l IH]; intros c Hl; cbn [for_list fold_right]; [f_equal; ring|].
        rewrite match_points_ok by (apply Hl; left; auto); cbn [bind fst snd].
        rewrite (reproject_ok H f) by auto; cbn [bind].
        rewrite IH by (intros; apply Hl; right; auto). f_equal. unfold match_cost at 2. cbn zeta. ring. }
      rewrite G by auto. f_equal; ring.
    Qed.

    (** the correspondences of a sample *)
    Definition sample_points (q : list nat) : list (point * point) :=
      map (fun i => let m := nth i matches (0, 0)%nat in (nth (fst m) kp1 (0, 0)%nat, nth (snd m) kp2 (0, 0)%nat)) q.

    Hypothesis Hsolve : forall points A, dlt_matrix K points = Ok A -> exists h, solve A = Ok h.

    Lemma compute_total points H : exists b H', compute_homography K eps solve points H = Ok (b, H') /\
      (b = true -> exists f, MRepr H' 3 3 f).
    Proof.
      destruct (Nat.lt_ge_cases (length points) 4) as [L|L].
      { rewrite compute_homography_few by auto. exists false, H; split; auto; discriminate. }
      destruct (dlt_matrix_ok points) as (A & EA & _). destruct (Hsolve points A EA) as (h & Eh).
      destruct (Nat.eq_dec (length h) 9) as [L9|N9].
      - destruct (compute_homography_ok eps solve points H A h EA Eh L9 L) as (H' & M & _ & E).
        rewrite E. do 2 eexists; split; [reflexivity|]. intros X.
        destruct (fabs (nth 8 h 0) <? eps); [discriminate|]. eauto.
      - exists false, H. split; [|discriminate]. unfold compute_homography.
        replace (length points <? 4)%nat with false by (symmetry; apply Nat.ltb_ge; lia).
        rewrite EA; cbn [bind]. rewrite Eh; cbn [bind].
        replace (length h =? 9)%nat with false by (symmetry; apply Nat.eqb_neq; auto). rewrite orb_true_r; auto.
    Qed.

    Definition sample_model (q : list nat) (H : matrix K) : Prop :=
      compute_homography K eps solve (sample_points q) (mat_new 0 3 3) = Ok (true, H).

    Lemma try_sample_ok q st : (forall i, In i q -> (i < length matches)%nat) ->
      exists st', try_sample K eps solve scorer kp1 kp2 matches thr q st = Ok st' /\
        ((forall H, ~ sample_model q H) /\ st' = st \/
         exists H f, sample_model q H /\ MRepr H 3 3 f /\
           st' = if total_cost f <? snd st then (H, total_cost f) else st).
    Proof.
      intros Hq. destruct st as [best_H min_cost]. unfold try_sample.
      rewrite (mapM_ok _ (fun i => let m := nth i matches (0, 0)%nat in (nth (fst m) kp1 (0, 0)%nat, nth (snd m) kp2 (0, 0)%nat))).
      2: { intros i Hi. rewrite (@vget_nth_d (nat * nat) (0, 0)%nat matches i) by auto; cbn [bind].
           apply match_points_ok. apply nth_In; auto. }
      cbn [bind]. fold (sample_points q).
      destruct (compute_total (sample_points q) (mat_new 0 3 3)) as (b & H & E & F). rewrite E; cbn [bind].
      destruct b; cbn [negb].
      - destruct (F eq_refl) as (f & MH). rewrite (model_cost_ok H f MH); cbn [bind].
        eexists; split; [reflexivity|]. right. exists H, f. split; [exact E|]. split; auto.
      - eexists; split; [reflexivity|]. left. split; auto. intros H' X. unfold sample_model in X. congruence.
    Qed.

    Lemma sample_model_fun q H H' : sample_model q H -> sample_model q H' -> H = H'.
    Proof. unfold sample_model. congruence. Qed.

    (** the state after the samples [qs], starting from [st] *)
    Definition best_of (qs : list (list nat)) (st st' : matrix K * K) : Prop :=
      (forall q H f, In q qs -> sample_model q H -> MRepr H 3 3 f -> (total_cost f <? snd st') = false) /\
      (st' = st \/ exists k H f, (k < length qs)%nat /\ sample_model (nth k qs []) H /\ MRepr H 3 3 f /\ st' = (H, total_cost f) /\
         (total_cost f <? snd st) = true /\
         forall k' H' f', (k' < k)%nat -> sample_model (nth k' qs []) H' -> MRepr H' 3 3 f' -> (total_cost f <? total_cost f') = true).

    Lemma total_cost_ext f g H : MRepr H 3 3 f -> MRepr H 3 3 g -> total_cost f = total_cost g.
    Proof.
      intros A B. pose proof (MRepr_fun H 3 3 f g A B) as E. unfold total_cost. clear Hm.
      induction matches as [|m l IH]; cbn [fold_right]; auto. f_equal; auto.
      unfold match_cost, error_sq, denominator. rewrite !E by lia. auto.
    Qed.

    Lemma robust_loop_ok : forall n draws st, (4 <= length matches)%nat -> (forall d, In d draws -> (d < length matches)%nat) ->
      robust_loop K eps solve scorer kp1 kp2 matches thr n draws st = None \/
      exists qs rest st', samples draws qs rest /\ length qs = n /\
        robust_loop K eps solve scorer kp1 kp2 matches thr n draws st = Some (Ok st') /\ best_of qs st st'.
    Proof.
      induction n as [|n IH]; intros draws st Hn Hd; cbn [robust_loop].
      - right. exists [], draws, st. split; [constructor|]. split; auto. split; auto.
        split; [intros q H f []|left; auto].
      - replace (length matches <? 4)%nat with false by (symmetry; apply Nat.ltb_ge; lia).
        destruct (draw_four [] draws) as [[q rest]|] eqn:Eq; [|left; auto].
        destruct (draw_four_samples draws q rest Eq) as (c & -> & -> & L4 & Mn).
        destruct (try_sample_ok (firsts c) st) as (st1 & E1 & C1).
        { intros i Hi. apply Hd. apply in_or_app; left. apply (proj1 (firsts_in _ _)) in Hi; auto. }
        rewrite E1.
        destruct (IH rest st1 Hn) as [N|(qs & rest' & st' & S' & L' & E' & (B1 & B2))].
        { intros d X; apply Hd, in_or_app; auto. }
        { left; auto. }
        right. exists (firsts c :: qs), rest', st'. split; [constructor; auto|]. split; [cbn; auto|]. split; auto.
        assert (Mono : (snd st1 <? snd st') = false).
        { destruct B2 as [->|(k & H & f & _ & _ & _ & -> & B & _)]; [apply f_irrefl|apply f_asym; auto]. }
        split.
        + intros q0 H f [<-|Hq] SM MH; [|eapply B1; eauto].
          destruct C1 as [(X & _)|(H1 & f1 & SM1 & M1 & ->)]; [exfalso; eapply X; eauto|].
          pose proof (sample_model_fun _ _ _ SM SM1) as <-. rewrite (total_cost_ext f f1 H MH M1).
          destruct (total_cost f1 <? snd st) eqn:X; cbn [snd] in Mono; auto.
          apply (f_le_trans K (snd st') (snd st) (total_cost f1)); auto.
        + destruct B2 as [->|(k & H & f & Hk & SM & MH & -> & B & P)].
          * destruct C1 as [(_ & ->)|(H1 & f1 & SM1 & M1 & ->)]; [left; auto|].
            destruct (total_cost f1 <? snd st) eqn:X; [|left; auto].
            right. exists 0%nat, H1, f1. cbn [nth length]. split; [lia|]. repeat split; auto; try apply M1. intros; lia.
          * right. exists (S k), H, f. cbn [length nth]. split; [lia|]. split; auto. split; auto. split; auto.
            cbn [snd] in *.
            split.
            { destruct C1 as [(_ & ->)|(H1 & f1 & SM1 & M1 & ->)]; auto.
              destruct (total_cost f1 <? snd st) eqn:X; auto. cbn [snd] in B. eapply f_trans; eauto. }
            intros k' H' f' Hk' SM' M'. destruct k' as [|k']; [|cbn [nth] in SM'; eapply P; eauto; lia].
            cbn [nth] in SM'. destruct C1 as [(X & _)|(H1 & f1 & SM1 & M1 & ->)]; [exfalso; eapply X; eauto|].
            pose proof (sample_model_fun _ _ _ SM' SM1) as <-. rewrite (total_cost_ext f' f1 H' M' M1).
            destruct (total_cost f1 <? snd st) eqn:X; cbn [snd] in B; auto.
            destruct (snd st <? total_cost f1) eqn:Y; [eapply f_trans; eauto|]. rewrite (f_total K _ _ X Y). auto.
    Qed.
  End Robust.
End Hom.
