(** PropHist.v - property theorems C32-C36 (histograms and Otsu's threshold).

    [occ l v] (the standard library's count_occ) is the number of occurrences of [v] in [l].
    A dense histogram is over the values 0 .. R-1 (R = 256 or 65536); a sparse one over any type with a strict
    total order.  [hd_total h t] / [hs_total m t]: getCountSum may return [t] (std::reduce in any order). *)
From Coq Require Import ZifyBool ZifyNat QArith Qround Lqa.
From Verif Require Import Base ImageModel ImageFacts HistModel HistProofs.
Open Scope nat_scope.

Definition strict_order {K} (ltb : K -> K -> bool) : Prop :=
  (forall a, ltb a a = false) /\
  (forall a b c, ltb a b = true -> ltb b c = true -> ltb a c = true) /\
  (forall a b, ltb a b = false -> ltb b a = false -> a = b).

(** C32: the histogram of an image counts the occurrences of every value *)
Theorem C32_dense_counts :
  forall R im, fits (length (pix im)) -> Forall (fun v => v < R) (pix im) ->
  exists h, hd_image R im = Ok h /\
    (forall v, v < R -> hd_count h v = Ok (occ (pix im) v) /\ hd_cindex h v = Ok (occ (pix im) v) /\
                        hd_index h v = Ok (occ (pix im) v)) /\
    (exists t, hd_total h t) /\ (forall t, hd_total h t -> t = length (pix im)).
Proof.
  intros R im F L; destruct (hd_image_spec R im F L) as (h & E & Lh & Sh & Hh).
  exists h; split; auto; split; [|split].
  - intros v Hv; specialize (Hh v Hv).
    unfold hd_count, hd_cindex, hd_index; rewrite (vget_ok _ _ _ Hh), Lh.
    destruct (Nat.ltb_spec v R); [|lia]; destruct (Nat.leb_spec R v); [lia|auto].
  - apply reduces_exists; discriminate.
  - intros t Ht; apply reduces_total in Ht; simpl in *; [rewrite Ht; exact Sh|].
    change (fold_right Nat.add 0 h) with (list_sum h); rewrite Sh; auto.
Qed.
Print Assumptions C32_dense_counts.

(** beyond the range of the element type: the checked accesses throw, the subscript of a constant histogram is zero *)
Theorem C32_dense_outside :
  forall R im h v, hd_image R im = Ok h -> fits (length (pix im)) -> Forall (fun v => v < R) (pix im) -> R <= v ->
  hd_count h v = Throw OutOfRange /\ hd_index h v = Throw OutOfRange /\ hd_cindex h v = Ok 0 /\ hd_index_set h v 1 = Throw OutOfRange.
Proof.
  intros R im h v E F L Hv; destruct (hd_image_spec R im F L) as (h' & E' & Lh & _); rewrite E in E'; injection E' as <-.
  unfold hd_count, hd_index, hd_cindex, hd_index_set; rewrite Lh.
  destruct (Nat.ltb_spec v R); [lia|]; destruct (Nat.leb_spec R v); [auto | lia].
Qed.
Print Assumptions C32_dense_outside.

Theorem C32_sparse_counts :
  forall (K : Type) (ltb : K -> K -> bool) (eq_dec : forall a b : K, {a = b} + {a <> b}) (im : image K),
  strict_order ltb -> fits (length (pix im)) ->
  (forall k, hs_count ltb (hs_image ltb im) k = count_occ eq_dec (pix im) k) /\
  (forall k, In k (map fst (hs_image ltb im)) <-> In k (pix im)) /\
  (exists t, hs_total (hs_image ltb im) t) /\ (forall t, hs_total (hs_image ltb im) t -> t = length (pix im)).
Proof.
  intros K ltb eq_dec im (Hi & Ht & Hq) F.
  destruct (hs_image_spec ltb eq_dec Hi Ht Hq im F) as [S H]; split; [|split; [|split]].
  - intros k; unfold hs_count; rewrite H; destruct (count_occ eq_dec (pix im) k); auto.
  - intros k; rewrite (count_occ_In eq_dec (pix im)); specialize (H k); split.
    + intros Hk; apply in_map_iff in Hk as ([k' c] & E & Hk); simpl in E; subst k'.
      rewrite (in_find ltb Hi Ht k c _ S Hk) in H; destruct (count_occ eq_dec (pix im) k); [discriminate|lia].
    + intros Hk; destruct (count_occ eq_dec (pix im) k); [lia|].
      apply (find_in ltb Hq) in H; apply (in_map fst) in H; auto.
  - apply reduces_exists; discriminate.
  - intros t Htot; pose proof (hs_image_sum ltb eq_dec Hi Ht Hq im F) as Es.
    unfold hs_total in Htot; apply reduces_total in Htot; simpl in *.
    + rewrite Htot; exact Es.
    + change (fold_right Nat.add 0 (map snd (hs_image ltb im))) with (list_sum (map snd (hs_image ltb im))).
      rewrite Es; auto.
Qed.
Print Assumptions C32_sparse_counts.

Lemma nat_strict : strict_order Nat.ltb.
Proof.
  split; [intros; apply Nat.ltb_irrefl|]; split.
  - intros a b c; rewrite !Nat.ltb_lt; lia.
  - intros a b; rewrite !Nat.ltb_ge; lia.
Qed.

Theorem C32_dense_sparse_agree :
  forall R im h, fits (length (pix im)) -> Forall (fun v => v < R) (pix im) -> hd_image R im = Ok h ->
  forall v, v < R -> hd_count h v = Ok (hs_count Nat.ltb (hs_image Nat.ltb im) v).
Proof.
  intros R im h F L E v Hv.
  destruct (C32_dense_counts R im F L) as (h' & E' & H & _); rewrite E in E'; injection E' as <-.
  destruct (C32_sparse_counts nat Nat.ltb Nat.eq_dec im nat_strict F) as (H' & _).
  rewrite H'; apply H; auto.
Qed.
Print Assumptions C32_dense_sparse_agree.

Example C32_example :
  let im := mkImage [3; 2] [7; 2; 7; 0; 7; 2] in
  (let* h := hd_image 8 im in hd_count h 7) = Ok 3 /\ hs_image Nat.ltb im = [(0, 1); (2, 2); (7, 3)].
Proof. vm_compute; auto. Qed.

(** C33: any history of addCount calls adds the number of occurrences, in any order; operator[] is an
    independent counter per value *)
Theorem C33_dense_history :
  forall h l l', fits (list_sum h + length l) -> Forall (fun v => v < length h) l -> Permutation l l' ->
  exists h', for_list l hd_add h = Ok h' /\ for_list l' hd_add h = Ok h' /\ length h' = length h /\
    forall v c, hd_count h v = Ok c -> hd_count h' v = Ok (c + occ l v).
Proof.
  intros h l l' F L P.
  destruct (hd_adds l h F L) as (h1 & E1 & L1 & _ & H1).
  destruct (hd_adds l' h) as (h2 & E2 & L2 & _ & H2).
  { rewrite <- (Permutation_length P); auto. }
  { rewrite <- P; auto. }
  assert (h1 = h2) as <-.
  { apply nth_error_ext_len; [congruence|]; intros k Hk; rewrite L1 in Hk.
    destruct (nth_error_lt h k Hk) as [c Ec]; rewrite (H1 k c Ec), (H2 k c Ec).
    do 2 f_equal; apply Permutation_count_occ with (eq_dec := Nat.eq_dec); auto. }
  exists h1; repeat split; auto.
  intros v c; unfold hd_count; rewrite L1; destruct (v <? length h); [|discriminate].
  intros Hc; apply vget_ok, H1; unfold vget in Hc; destruct (nth_error h v); congruence.
Qed.
Print Assumptions C33_dense_history.

Theorem C33_sparse_history :
  forall (K : Type) (ltb : K -> K -> bool) (eq_dec : forall a b : K, {a = b} + {a <> b}) l0 l l',
  strict_order ltb -> fits (length l0 + length l) -> Permutation l l' ->
  let m := fold_left (hs_add ltb) l0 [] in
  fold_left (hs_add ltb) l m = fold_left (hs_add ltb) l' m /\
  forall k, hs_count ltb (fold_left (hs_add ltb) l m) k = hs_count ltb m k + count_occ eq_dec l k.
Proof.
  intros K ltb eq_dec l0 l l' (Hi & Ht & Hq) F P m.
  assert (Fb : forall k, fits (hs_count ltb [] k + length l0)).
  { intros k; unfold hs_count; simpl; unfold fits in *; lia. }
  destruct (hs_adds ltb eq_dec Hi Ht Hq l0 [] I Fb) as [S0 H0]; fold m in S0, H0.
  assert (Fm : forall k, fits (hs_count ltb m k + length l)).
  { intros k; unfold hs_count; rewrite H0; cbn [map_find].
    pose proof (count_occ_bound eq_dec k l0); destruct (count_occ eq_dec l0 k); unfold fits in *; lia. }
  destruct (hs_adds ltb eq_dec Hi Ht Hq l m S0 Fm) as [S1 H1].
  destruct (hs_adds ltb eq_dec Hi Ht Hq l' m S0) as [S2 H2].
  { intros k; rewrite <- (Permutation_length P); auto. }
  split.
  - apply (sorted_map_ext ltb eq_dec Hi Ht Hq); auto.
    intros k; rewrite H1, H2.
    rewrite (proj1 (Permutation_count_occ eq_dec l l') P k); auto.
  - intros k; unfold hs_count; rewrite H1; destruct (map_find ltb k m); auto.
    destruct (count_occ eq_dec l k); auto.
Qed.
Print Assumptions C33_sparse_history.

Theorem C33_dense_subscript :
  forall h v c, v < length h ->
  exists h', hd_index_set h v c = Ok h' /\ length h' = length h /\
    hd_count h' v = Ok c /\ forall u, u <> v -> hd_count h' u = hd_count h u.
Proof.
  intros h v c Hv; unfold hd_index_set, hd_count; destruct (Nat.leb_spec (length h) v); [lia|].
  rewrite vset_ok by auto; eexists; split; [reflexivity|]; rewrite list_upd_length.
  split; auto; split.
  - destruct (Nat.ltb_spec v (length h)); [|lia]; apply vget_ok, list_upd_same; auto.
  - intros u Hu; unfold vget; rewrite list_upd_other by auto; auto.
Qed.
Print Assumptions C33_dense_subscript.

Theorem C33_sparse_subscript :
  forall (K : Type) (ltb : K -> K -> bool) (eq_dec : forall a b : K, {a = b} + {a <> b}) l k c,
  strict_order ltb -> fits (length l) ->
  let m := fold_left (hs_add ltb) l [] in
  (forall j, hs_count ltb (hs_index_set ltb m k c) j = if eq_dec j k then c else hs_count ltb m j) /\
  fst (hs_index ltb m k) = hs_count ltb m k /\
  (forall j, hs_count ltb (snd (hs_index ltb m k)) j = hs_count ltb m j).
Proof.
  intros K ltb eq_dec l k c (Hi & Ht & Hq) F m.
  assert (S : sorted ltb m).
  { apply (hs_adds ltb eq_dec Hi Ht Hq l [] I); intros j; unfold hs_count; simpl; auto. }
  split; [|split; auto].
  - intros j; unfold hs_count, hs_index_set.
    rewrite (proj1 (find_upd ltb eq_dec Hi Ht Hq 0 (fun _ => c) k m S) j); destruct (eq_dec j k); auto.
  - intros j; unfold hs_count, hs_index; simpl.
    rewrite (proj1 (find_upd ltb eq_dec Hi Ht Hq 0 (fun c => c) k m S) j).
    destruct (eq_dec j k) as [->|]; auto; destruct (map_find ltb k m); auto.
Qed.
Print Assumptions C33_sparse_subscript.

Example C33_example :
  for_list [1; 3; 1] hd_add [0; 5; 0; 0] = Ok [0; 7; 0; 1] /\
  fold_left (hs_add Nat.ltb) [3; 1; 3] [(2, 9)] = [(1, 1); (2, 9); (3, 2)].
Proof. vm_compute; auto. Qed.

(** C34: normalised histograms are probability distributions proportional to the counts *)
Definition distribution (p : list Q) : Prop := Forall (fun x => 0 <= x)%Q p /\ (qsum p == 1)%Q.

Lemma distribution_counts h : 0 < list_sum h ->
  distribution (map (fun c => q_of c / q_of (list_sum h))%Q h).
Proof.
  intros Hp; split.
  - apply Forall_map, Forall_forall; intros c _; apply qdiv_nonneg; auto.
  - rewrite qsum_div; field; apply q_of_pos in Hp; lra.
Qed.

Theorem C34_dense :
  forall h t, fits (list_sum h) -> 0 < list_sum h -> hd_total h t ->
  exists p, hd_normalize (length h) h t = Ok p /\ hd_probabilities (length h) h t = Ok p /\
    distribution p /\
    forall i c, nth_error h i = Some c -> exists q, nth_error p i = Some q /\ (q * q_of (list_sum h) == q_of c)%Q.
Proof.
  intros h t F Hp Ht; apply reduces_total in Ht; [|exact F]; simpl in Ht; subst t.
  change (fold_right Nat.add 0 h) with (list_sum h).
  rewrite hd_normalize_ok, hd_probabilities_ok; eexists; split; [reflexivity|]; split; [reflexivity|].
  split; [apply distribution_counts; auto|].
  intros i c Hi; eexists; split; [apply nth_error_map_some; exact Hi|]; cbv beta.
  field; apply q_of_pos in Hp; lra.
Qed.
Print Assumptions C34_dense.

Theorem C34_sparse :
  forall (K : Type) (ltb : K -> K -> bool) (eq_dec : forall a b : K, {a = b} + {a <> b}) (im : image K) t,
  strict_order ltb -> fits (length (pix im)) -> pix im <> [] -> hs_total (hs_image ltb im) t ->
  let p := hs_normalize ltb (hs_image ltb im) t in
  normalize_histogram_map ltb (hs_image ltb im) = p /\ distribution (map snd p) /\
  forall k, (prob ltb p k == q_of (count_occ eq_dec (pix im) k) / q_of (length (pix im)))%Q.
Proof.
  intros K ltb eq_dec im t (Hi & Ht & Hq) F Hne Htot p.
  pose proof (hs_image_sum ltb eq_dec Hi Ht Hq im F) as Es.
  destruct (hs_image_spec ltb eq_dec Hi Ht Hq im F) as [S H].
  unfold hs_total in Htot; apply reduces_total in Htot; [|change (fits (list_sum (map snd (hs_image ltb im)))); rewrite Es; auto].
  assert (Et : t = length (pix im)) by (rewrite <- Es; exact Htot); clear Htot; subst t.
  assert (Hp : 0 < length (pix im)) by (destruct (pix im); [congruence|simpl; lia]).
  unfold p, hs_normalize.
  rewrite (emplace_all ltb Hi Ht (fun kv => q_of (snd kv) / q_of (length (pix im)))%Q _ S).
  split; [|split].
  - unfold normalize_histogram_map, hs_normalize.
    assert (Ess : sum_second (hs_image ltb im) = length (pix im)).
    { unfold sum_second; assert (G : forall (m : list (K * nat)) s, fits (s + list_sum (map snd m)) ->
        fold_left (fun s kv => uadd s (snd kv)) m s = s + list_sum (map snd m)).
      { induction m as [|[k c] m IH]; intros s Fs; [simpl; lia|].
        change (list_sum (map snd ((k, c) :: m))) with (c + list_sum (map snd m)) in *.
        cbn [fold_left snd]; rewrite uadd_fits, IH; unfold fits in *; lia. }
      rewrite G; [exact Es|]. rewrite Es; auto. }
    rewrite Ess; apply (emplace_all ltb Hi Ht (fun kv => q_of (snd kv) / q_of (length (pix im)))%Q _ S).
  - rewrite map_map; cbn [snd].
    rewrite <- (map_map snd (fun c => q_of c / q_of (length (pix im)))%Q), <- Es.
    apply distribution_counts; rewrite Es; auto.
  - intros k; unfold prob.
    assert (G : forall m, map_find ltb k (map (fun kv => (fst kv, q_of (snd kv) / q_of (length (pix im)))%Q) m) =
                match map_find ltb k m with Some c => Some (q_of c / q_of (length (pix im)))%Q | None => None end).
    { induction m as [|[k' c'] m IH]; simpl; auto; destruct (ltb k k'); auto; destruct (ltb k' k); auto. }
    rewrite G, H; destruct (count_occ eq_dec (pix im) k); [|reflexivity].
    unfold q_of, Qdiv; simpl; ring.
Qed.
Print Assumptions C34_sparse.

(** histogram_normalized computes the same frequencies directly *)
Theorem C34_histogram_normalized :
  forall R im, wf im -> Forall (fun v => v < R) (pix im) ->
  exists p, histogram_normalized_dense R im = Ok p /\ length p = R /\
    (forall v, v < R -> exists q, nth_error p v = Some q /\
       (q == q_of (occ (pix im) v) / q_of (length (pix im)))%Q) /\
    (forall v, (prob Nat.ltb (histogram_normalized_sparse Nat.ltb im) v ==
       q_of (occ (pix im) v) / q_of (length (pix im)))%Q).
Proof.
  intros R im W L; unfold histogram_normalized_dense, histogram_normalized_sparse.
  assert (Ec : count im = length (pix im)) by (unfold count; symmetry; exact W).
  rewrite Ec.
  destruct (hnd_loop (1 / q_of (length (pix im)))%Q (pix im) (repeat 0%Q R)) as (p & E & Lp & Hp).
  { rewrite repeat_length; auto. }
  rewrite repeat_length in Lp.
  exists p; split; auto; split; auto; split.
  - intros v Hv; destruct (Hp v 0%Q) as (q & Eq & Q); [apply nth_error_repeat_some; auto|].
    exists q; split; auto; rewrite Q; unfold Qdiv; ring.
  - intros v; destruct nat_strict as (Hi & Ht & Hq).
    destruct (hns_loop Nat.ltb Nat.eq_dec Hi Ht Hq (1 / q_of (length (pix im)))%Q (pix im) [] I) as (_ & P & _).
    rewrite P; unfold prob; simpl map_find; unfold Qdiv; ring.
Qed.
Print Assumptions C34_histogram_normalized.

(** normalize_histogram of a std::array: correct when the sum does not wrap in the element type *)
Theorem C34_array_partial :
  forall m h out, Forall (fun c => 0 <= c)%Z h -> (0 < fold_right Z.add 0 h < m)%Z ->
  normalize_histogram_array m h out ->
  distribution out /\
  forall i c, nth_error h i = Some c ->
    exists q, nth_error out i = Some q /\ (q * inject_Z (fold_right Z.add 0 h)%Z == inject_Z c)%Q.
Proof.
  intros m h out F B (sum & R & ->).
  assert (G : forall l r, reduces (wrap_add m) l r -> Forall (fun c => 0 <= c < m)%Z l ->
            r = (fold_right Z.add 0 l mod m)%Z).
  { induction 1 as [a|l l1 l2 a b P R1 IH1 R2 IH2]; intros Fl.
    - apply Forall_inv in Fl; simpl; rewrite Z.add_0_r, Z.mod_small; lia.
    - assert (Fl' : Forall (fun c => 0 <= c < m)%Z (l1 ++ l2)) by (rewrite <- P; auto).
      apply Forall_app in Fl' as [F1 F2]; rewrite IH1, IH2 by auto; unfold wrap_add.
      rewrite <- Zplus_mod; f_equal.
      assert (E : forall l l', Permutation l l' -> fold_right Z.add 0%Z l = fold_right Z.add 0%Z l')
        by (induction 1; simpl; lia).
      rewrite (E _ _ P); clear; induction l1; simpl; lia. }
  assert (Bd : Forall (fun c => 0 <= c < m)%Z h /\ (0 <= fold_right Z.add 0 h)%Z).
  { clear - F B; assert (N : (0 <= fold_right Z.add 0 h)%Z) by (clear B; induction F; simpl; lia).
    split; auto; destruct B as [_ B]; clear N; revert B.
    induction F as [|c h Hc Hh IH]; simpl; intros B; constructor.
    - assert ((0 <= fold_right Z.add 0 h)%Z) by (clear - Hh; induction Hh; simpl; lia); lia.
    - apply IH; lia. }
  destruct Bd as [Bd N].
  assert (sum = fold_right Z.add 0%Z h).
  { rewrite (G _ _ R); [simpl; apply Z.mod_small; lia|]; constructor; auto; lia. }
  subst sum; clear R G.
  assert (P : (0 < inject_Z (fold_right Z.add 0 h)%Z)%Q) by (unfold Qlt; simpl; lia).
  split; [split|].
  - apply Forall_map; eapply Forall_impl; [|exact F]; simpl; intros c Hc.
    apply Qle_shift_div_l; auto; rewrite Qmult_0_l; unfold Qle; simpl; lia.
  - assert (S : forall l (T : Q), (qsum (map (fun c => inject_Z c / T) l) == inject_Z (fold_right Z.add 0%Z l) / T)%Q).
    { clear; induction l as [|c l IH]; intros T; [unfold Qdiv; simpl; ring|].
      change ((inject_Z c / T + qsum (map (fun c => inject_Z c / T) l) == inject_Z (c + fold_right Z.add 0%Z l) / T)%Q).
      rewrite IH, inject_Z_plus; unfold Qdiv; ring. }
    rewrite S; field; lra.
  - intros i c Hi; eexists; split; [apply nth_error_map_some; exact Hi|]; cbv beta; field; lra.
Qed.
Print Assumptions C34_array_partial.

(** counts held in uint8_t: the sum wraps and the result is not a distribution *)
Theorem C34_array_refuted :
  exists h out, Forall (fun c => 0 <= c < 256)%Z h /\ (0 < fold_right Z.add 0 h)%Z /\
    normalize_histogram_array 256 h out /\ ~ distribution out.
Proof.
  exists [200; 100]%Z; eexists; split; [repeat constructor; lia|]; split; [simpl; lia|]; split.
  - exists 44%Z; split; [|reflexivity].
    change 44%Z with (wrap_add 256 (wrap_add 256 0 200) 100).
    apply (red_split _ _ [0; 200]%Z [100]%Z); [reflexivity| |constructor].
    apply (red_split _ _ [0]%Z [200]%Z); [reflexivity|constructor|constructor].
  - intros [_ C]; vm_compute in C; discriminate.
Qed.
Print Assumptions C34_array_refuted.

(** fractional counts: to_probabilities_vector truncates the total to an integer *)
Theorem C34_fractional_counts_refuted :
  exists h p, Forall (fun c => 0 <= c)%Q h /\ (0 < qsum h)%Q /\
    hdq_probabilities (length h) h (qsum h) = Ok p /\ ~ distribution p.
Proof.
  exists [3 # 2; 1 # 4]%Q; eexists; split; [repeat constructor; discriminate|]; split; [reflexivity|]; split.
  - vm_compute; reflexivity.
  - intros [_ C]; vm_compute in C; discriminate.
Qed.
Print Assumptions C34_fractional_counts_refuted.

(** a histogram built from a vector with more entries than the element type has values: normalize writes past
    the end of its output *)
Theorem C34_long_vector_refuted :
  exists R h t, hd_total h t /\ 0 < t /\ hd_normalize R h t = UB.
Proof.
  exists 2, [1; 1; 1], 3; split; [|split; [lia|vm_compute; reflexivity]].
  unfold hd_total; change 3 with (uadd (uadd 0 1) (uadd 1 1)).
  apply (red_split _ _ [0; 1] [1; 1]); [reflexivity| |].
  - apply (red_split _ _ [0] [1]); [reflexivity|constructor|constructor].
  - apply (red_split _ _ [1] [1]); [reflexivity|constructor|constructor].
Qed.
Print Assumptions C34_long_vector_refuted.

Example C34_example : hd_normalize 3 [1; 0; 3] 4 = Ok [1 # 4; 0 # 4; 3 # 4]%Q.
Proof. vm_compute; reflexivity. Qed.

(** C35: bins of the range [0, mx] *)
Theorem C35_bins_partial :
  forall bins mx im, 0 < bins -> fits bins -> (0 < mx)%Z -> fits (length (pix im)) ->
  Forall (fun v => 0 <= v <= mx)%Z (pix im) ->
  exists h, histogram_with_bins bins 0 mx im = Ok h /\ length h = bins /\ list_sum h = length (pix im) /\
    forall k, k < bins -> nth_error h k = Some (length (filter (fun v => in_bin bins 0 mx v k) (pix im))).
Proof.
  intros bins mx im Hb Fb Hm F L; rewrite histogram_with_bins_adds by auto.
  destruct (hd_adds (map (bin_index bins mx) (pix im)) (repeat 0 bins)) as (h & E & Lh & Sh & Hh).
  - rewrite list_sum_repeat0, map_length; auto.
  - rewrite repeat_length; apply Forall_map; eapply Forall_impl; [|exact L]; simpl; intros v Hv.
    apply bin_index_lt; auto.
  - rewrite repeat_length in Lh; rewrite list_sum_repeat0, map_length in Sh.
    exists h; split; auto; split; auto; split; auto.
    intros k Hk; rewrite (Hh k 0) by (apply nth_error_repeat_some; auto); f_equal; simpl.
    clear - L Hb Hm Hk; induction L as [|v l Hv Hl IH]; cbn [map count_occ filter]; auto.
    rewrite bin_index_spec by auto.
    destruct (Nat.eq_dec (bin_index bins mx v) k) as [Ek|N].
    + apply Nat.eqb_eq in Ek; rewrite Ek; simpl; f_equal; auto.
    + apply Nat.eqb_neq in N; rewrite N; auto.
Qed.
Print Assumptions C35_bins_partial.

(** a range not starting at zero: values in the wrong bin, or undefined behaviour *)
Theorem C35_wrong_bin_refuted :
  exists lowest mx im h v k, (lowest <= v <= mx)%Z /\ pix im = [v] /\
    histogram_with_bins 8 lowest mx im = Ok h /\ in_bin 8 lowest mx v k = true /\ nth_error h k = Some 0.
Proof.
  exists (-128)%Z, 127%Z, (mkImage [1] [127%Z]), [0; 0; 0; 1; 0; 0; 0; 0], 127%Z, 7.
  split; [lia|]; repeat split; vm_compute; auto.
Qed.
Print Assumptions C35_wrong_bin_refuted.

Theorem C35_negative_value_refuted :
  forall bins lowest mx im v rest, 0 < bins -> (lowest <= v < 0)%Z -> (lowest < mx)%Z -> pix im = v :: rest ->
  histogram_with_bins bins lowest mx im = UB.
Proof.
  intros bins lowest mx im v rest Hb Hv Hm E; unfold histogram_with_bins; rewrite E; cbn [for_list].
  assert (B : bin_of bins lowest mx v = UB).
  { unfold bin_of.
    assert (Ef : Qfloor (inject_Z v * q_of bins / (inject_Z mx - inject_Z lowest)) =
                 (v * Z.of_nat bins / (mx - lowest))%Z).
    { rewrite Zdiv_Qdiv; apply Qfloor_comp; unfold q_of, Qminus; rewrite <- inject_Z_mult.
      rewrite <- inject_Z_opp, <- inject_Z_plus; reflexivity. }
    rewrite Ef; destruct (Z.ltb_spec (v * Z.of_nat bins / (mx - lowest)) 0); auto.
    assert (v * Z.of_nat bins / (mx - lowest) < 0)%Z by (apply Z.div_lt_upper_bound; nia); lia. }
  rewrite B; reflexivity.
Qed.
Print Assumptions C35_negative_value_refuted.

Theorem C35_shifted_range_refuted :
  exists im, Forall (fun v => 128 <= v <= 255)%Z (pix im) /\ histogram_with_bins 8 128 255 im = UB.
Proof. exists (mkImage [1] [200%Z]); split; [repeat constructor; lia|vm_compute; auto]. Qed.
Print Assumptions C35_shifted_range_refuted.

Example C35_example :
  histogram_with_bins 4 0 255 (mkImage [6] [0; 63; 64; 128; 254; 255]%Z) = Ok [2; 1; 1; 2].
Proof. vm_compute; reflexivity. Qed.

(** C36: Otsu's threshold is the first maximiser of the between-class variance among the thresholds that leave
    both classes non-empty; without such a threshold the number of bins is returned *)
Theorem C36_otsu :
  forall h, Forall (fun x => 0 <= x)%Q h ->
  ((forall u, ~ separates h u) -> otsu h = Ok (length h)) /\
  (forall v, separates h v -> exists t, otsu h = Ok t /\ separates h t /\
     (forall u, separates h u -> between_var h u <= between_var h t)%Q /\
     (forall u, u < t -> separates h u -> (between_var h u < between_var h t)%Q)).
Proof. exact otsu_spec. Qed.
Print Assumptions C36_otsu.

(** the threshold of an image, in terms of its pixels: [pixel_var] is |lower| * |upper| * (difference of the
    mean values of the two classes) squared *)
Theorem C36_image :
  forall R im t out, fits (length (pix im)) -> Forall (fun v => v < R) (pix im) -> pix im <> [] ->
  otsu_image R im t out ->
  let splits u := (exists v, In v (pix im) /\ v <= u) /\ (exists v, In v (pix im) /\ u < v) in
  ((forall u, ~ splits u) -> out = Ok R) /\
  (forall v, splits v -> exists u, out = Ok u /\ splits u /\
     (forall w, splits w -> pixel_var (pix im) w <= pixel_var (pix im) u)%Q /\
     (forall w, w < u -> splits w -> (pixel_var (pix im) w < pixel_var (pix im) u)%Q)).
Proof.
  intros R im t out F L Hne (h & Eh & Ht & ->) splits.
  destruct (hd_image_spec R im F L) as (h' & E' & Lh & Sh & Hh); rewrite Eh in E'; injection E' as <-.
  apply reduces_total in Ht; [|change (fits (list_sum h)); rewrite Sh; auto].
  assert (Et : t = length (pix im)) by (rewrite <- Sh; exact Ht); clear Ht; subst t.
  assert (Eq : h = map (occ (pix im)) (seq 0 R)).
  { apply nth_error_ext_len; [rewrite map_length, seq_length; auto|].
    intros k Hk; rewrite Hh by lia; symmetry; apply nth_error_map_some; rewrite nth_error_seq by lia; auto. }
  replace (hd_probabilities R h) with (hd_probabilities (length h) h) by (rewrite Lh; auto).
  rewrite hd_probabilities_ok; cbn [bind]; rewrite Eq, map_map.
  destruct (otsu_pixels R (pix im) L Hne) as [H0 H1].
  assert (Sp : forall u, splits u <-> separates (map (fun i => q_of (occ (pix im) i) / q_of (length (pix im)))%Q (seq 0 R)) u).
  { intros u; rewrite separates_pixels by auto; reflexivity. }
  split.
  - intros Hn; apply H0; intros u Su; apply (Hn u), Sp; auto.
  - intros v Sv; destruct (H1 v) as (u & E & Su & A & B); [apply Sp; auto|].
    exists u; split; auto; split; [apply Sp; auto|]; split.
    + intros w Sw; apply A, Sp; auto.
    + intros w Hw Sw; apply B; auto; apply Sp; auto.
Qed.
Print Assumptions C36_image.

Example C36_example :
  otsu [1 # 4; 1 # 4; 0; 0; 1 # 2]%Q = Ok 1 /\ separates [1 # 4; 1 # 4; 0; 0; 1 # 2]%Q 1 /\
  otsu [0; 1; 0]%Q = Ok 3.
Proof. vm_compute; repeat split; auto. Qed.
