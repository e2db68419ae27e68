(** PropMatch.v - matching of descriptors (C52, C53). *)
From Coq Require Import Reals QArith Qcanon Lra Lia Permutation Sorted.
From Verif Require Import Base OField PixelModel PixelProofs InterpModel ReduceModel ReduceProofs PropReduce MatchModel MatchProofs.
Open Scope nat_scope.

(** every distance from a descriptor of [d1] to one of [d2] is computed, is [d i j] and is below [big] *)
Definition distances (K : ofield) (big : K) {D} (dist : D -> D -> res K) (d1 d2 : list D) (d : nat -> nat -> K) : Prop :=
  forall i j, i < length d1 -> j < length d2 ->
    exists a b, nth_error d1 i = Some a /\ nth_error d2 j = Some b /\ dist a b = Ok (d i j) /\ (d i j <? big)%F = true.

(** j is the first of the nearest of n2 candidates *)
Definition is_nearest (K : ofield) (n2 : nat) (d : nat -> K) (j : nat) : Prop :=
  j < n2 /\ (forall k, k < n2 -> (d k <? d j)%F = false) /\ (forall k, k < j -> (d j <? d k)%F = true).
(** Lowe's test against every other candidate; with one candidate the second best distance is [big] *)
Definition ratio_ok (K : ofield) (big : K) (n2 : nat) (d : nat -> K) (ratio : K) (j : nat) : Prop :=
  (d j <? ratio * ratio * big)%F = true /\ forall k, k < n2 -> k <> j -> (d j <? ratio * ratio * d k)%F = true.

(** ** C52 *)
Theorem C52_raw (K : ofield) (big : K) {D} (dist : D -> D -> res K) s d1 d2 ratio d :
  sched1_ok s -> distances K big dist d1 d2 d ->
  exists ms, find_raw_matches K big dist s d1 d2 ratio = Ok ms /\ NoDup (map fst ms) /\
    forall i j, In (i, j) ms <-> i < length d1 /\ is_nearest K (length d2) (d i) j /\ ratio_ok K big (length d2) (d i) ratio j.
Proof.
  intros Hs Hd. destruct (raw_matches_ok K big dist s d1 d2 ratio d Hs Hd) as (g & E & G).
  eexists; split; [apply E; auto|]. split.
  - apply raw_list_fst. apply (Permutation_NoDup (Permutation_sym (Hs (length d1)))), seq_NoDup.
  - intros i j. rewrite in_raw_list, (sched1_in s) by auto.
    split; intros (H1 & H2); split; auto; apply G; auto.
Qed.
Print Assumptions C52_raw.

(** the set of matches does not depend on the schedule; sequentially they come in the order of the first list *)
Theorem C52_schedule (K : ofield) (big : K) {D} (dist : D -> D -> res K) s s' d1 d2 ratio d :
  sched1_ok s -> sched1_ok s' -> distances K big dist d1 d2 d ->
  exists ms ms' ms0, find_raw_matches K big dist s d1 d2 ratio = Ok ms /\ find_raw_matches K big dist s' d1 d2 ratio = Ok ms' /\
    find_raw_matches K big dist seq0 d1 d2 ratio = Ok ms0 /\ Permutation ms ms' /\ Permutation ms ms0 /\ StronglySorted lt (map fst ms0).
Proof.
  intros Hs Hs' Hd. destruct (raw_matches_ok K big dist s d1 d2 ratio d Hs Hd) as (g & E & _).
  do 3 eexists. split; [apply E; auto|]. split; [apply E; auto|]. split; [apply E, sched1_seq0|].
  split; [|split].
  - apply raw_list_perm. rewrite (Hs _), (Hs' _); auto.
  - apply raw_list_perm. rewrite (Hs _); auto.
  - clear E. unfold seq0. generalize 0 at 1. induction (length d1) as [|n IH]; intros a; [constructor|].
    unfold raw_list in *; cbn [seq flat_map]. specialize (IH (S a)).
    destruct (g a) as [j|]; auto. cbn [map app fst]. constructor; auto.
    apply Forall_forall. intros x Hx. apply in_map_iff in Hx as ((u, v) & <- & Hx).
    apply (in_raw_list g) in Hx as (Hx & _). apply in_seq in Hx. cbn; lia.
Qed.
Print Assumptions C52_schedule.

(** the default distance on descriptors of a common length *)
Definition sqdist (p q : list R) : R := fold_right Rplus 0%R (map (fun ab => (fst ab - snd ab) * (fst ab - snd ab))%R (combine p q)).

Definition desc_dist (p q : list R) : res Rfield := squared_range p q 0%R.

Lemma desc_dist_ok p q : length p = length q -> desc_dist p q = Ok (sqdist p q).
Proof. apply C79_range. Qed.

Lemma desc_distances big n d1 d2 : (forall p, In p d1 -> length p = n) -> (forall q, In q d2 -> length q = n) ->
  (forall p q, In p d1 -> In q d2 -> (sqdist p q < big)%R) ->
  distances Rfield big desc_dist d1 d2 (fun i j => sqdist (nth i d1 []) (nth j d2 [])).
Proof.
  intros H1 H2 H3 i j Hi Hj. exists (nth i d1 []), (nth j d2 []).
  pose proof (nth_In d1 [] Hi). pose proof (nth_In d2 [] Hj).
  split; [apply nth_error_nth'; auto|]. split; [apply nth_error_nth'; auto|].
  split; [apply desc_dist_ok; rewrite H1, H2; auto|]. apply rltb_spec; auto.
Qed.

(** with the default distance and a ratio threshold in (0, 1], (i, j) is reported exactly when j is closer than [ratio] times
    the distance to every other candidate (and than [ratio] times the square root of [big]) *)
Theorem C52_euclidean big n s (d1 d2 : list (list R)) (ratio : R) :
  sched1_ok s -> (forall p, In p d1 -> length p = n) -> (forall q, In q d2 -> length q = n) ->
  (forall p q, In p d1 -> In q d2 -> (sqdist p q < big)%R) -> (0 < ratio <= 1)%R ->
  exists ms, find_raw_matches Rfield big desc_dist s d1 d2 ratio = Ok ms /\ NoDup (map fst ms) /\
    forall i j, In (i, j) ms <-> i < length d1 /\ j < length d2 /\
      (sqdist (nth i d1 []) (nth j d2 []) < ratio * ratio * big)%R /\
      forall k, k < length d2 -> k <> j ->
        (sqrt (sqdist (nth i d1 []) (nth j d2 [])) < ratio * sqrt (sqdist (nth i d1 []) (nth k d2 [])))%R.
Proof.
  intros Hs H1 H2 H3 Hr.
  destruct (C52_raw Rfield big desc_dist s d1 d2 ratio _ Hs (desc_distances big n d1 d2 H1 H2 H3)) as (ms & E & N & G).
  exists ms; split; auto; split; auto. intros i j. rewrite G.
  assert (P : forall p q, (0 <= sqdist p q)%R).
  { induction p as [|a p IH]; intros [|b q]; unfold sqdist; cbn [combine map fold_right fst snd]; try lra.
    specialize (IH q). unfold sqdist in IH. pose proof (Rle_0_sqr (a - b)) as Q. unfold Rsqr in Q. lra. }
  assert (SQ : forall x y, (0 <= x)%R -> (0 <= y)%R -> (sqrt x < ratio * sqrt y <-> x < ratio * ratio * y)%R).
  { intros x y Hx Hy. pose proof (sqrt_pos x). pose proof (sqrt_pos y).
    pose proof (sqrt_sqrt x Hx) as SX. pose proof (sqrt_sqrt y Hy) as SY.
    assert (Hb : (0 <= ratio * sqrt y)%R) by nra.
    replace (ratio * ratio * y)%R with ((ratio * sqrt y) * (ratio * sqrt y))%R by (rewrite <- SY at 3; ring).
    rewrite <- SX at 2. revert H Hb. clear. generalize (sqrt x), (ratio * sqrt y)%R. intros a b Ha Hb. split; intros L; nra. }
  unfold is_nearest, ratio_ok. split.
  - intros (Hi & (Hj & _ & _) & (A & B)). split; auto. split; auto. split; [apply rltb_spec in A; exact A|].
    intros k Hk Nk. apply SQ; auto. specialize (B k Hk Nk). apply rltb_spec in B; exact B.
  - intros (Hi & Hj & A & B). split; auto.
    assert (C : forall k, k < length d2 -> k <> j -> (sqdist (nth i d1 []) (nth j d2 []) < ratio * ratio * sqdist (nth i d1 []) (nth k d2 []))%R).
    { intros k Hk Nk. apply SQ; auto. }
    assert (L : forall k, k < length d2 -> k <> j -> (sqdist (nth i d1 []) (nth j d2 []) < sqdist (nth i d1 []) (nth k d2 []))%R).
    { intros k Hk Nk. specialize (C k Hk Nk). pose proof (P (nth i d1 []) (nth k d2 [])) as PP. revert C PP Hr. clear.
      generalize (sqdist (nth i d1 []) (nth j d2 [])), (sqdist (nth i d1 []) (nth k d2 [])). intros u v C PP Hr.
      assert (ratio * ratio <= 1)%R by nra. nra. }
    split; [split; [auto|split]|split].
    + intros k Hk. apply rltb_false. destruct (Nat.eq_dec k j) as [->|Nk]; [lra|]. left; auto.
    + intros k Hk. apply rltb_spec. apply L; lia.
    + apply rltb_spec; auto.
    + intros k Hk Nk. apply rltb_spec. apply C; auto.
Qed.
Print Assumptions C52_euclidean.

(** two descriptors of different lengths: the search fails whatever the schedule *)
Theorem C52_lengths big s (d1 d2 : list (list R)) (ratio : R) p q :
  sched1_ok s -> In p d1 -> In q d2 -> length p <> length q ->
  find_raw_matches Rfield big desc_dist s d1 d2 ratio = Throw RuntimeError.
Proof.
  intros Hs Hp Hq L. unfold find_raw_matches.
  destruct (length d1 =? 0) eqn:E1; [apply Nat.eqb_eq in E1; destruct d1; [destruct Hp|discriminate]|].
  destruct (length d2 =? 0) eqn:E2; [apply Nat.eqb_eq in E2; destruct d2; [destruct Hq|discriminate]|]. cbn [orb].
  assert (T : forall a b, desc_dist a b = Throw RuntimeError \/ exists v, desc_dist a b = Ok v).
  { intros a b. destruct (Nat.eq_dec (length a) (length b)); [right; eexists; apply desc_dist_ok; auto|].
    left; apply C79_range; auto. }
  assert (S : forall a, scan_best Rfield big desc_dist a d2 = Throw RuntimeError \/ exists st, scan_best Rfield big desc_dist a d2 = Ok st).
  { intros a. unfold scan_best, for_range.
    assert (F : forall l st, (forall j, In j l -> j < length d2) -> 
      let r := for_list l (fun j (st : Rfield * Rfield * nat) => let '(best, second, idx) := st in
      let* b := vget d2 j in
      let* d := desc_dist a b in
      Ok (if (d <? best)%F then (d, best, j) else if (d <? second)%F then (best, d, idx) else st)) st in
      r = Throw RuntimeError \/ exists st', r = Ok st').
    { induction l as [|j l IH]; intros [[best second] idx] Hl; cbn [for_list]; [right; eauto|].
      destruct (nth_error d2 j) as [b|] eqn:Nb.
      2: { apply nth_error_None in Nb. specialize (Hl j (or_introl eq_refl)). lia. }
      rewrite (vget_ok _ _ _ Nb); cbn [bind]. destruct (T a b) as [->|(v & ->)]; cbn [bind]; [left; auto|].
      apply IH. intros; apply Hl; right; auto. }
    apply F. intros j Hj. apply in_seq in Hj; lia. }
  assert (S' : scan_best Rfield big desc_dist p d2 = Throw RuntimeError).
  { destruct (S p) as [|(st & E)]; auto. exfalso. unfold scan_best in E.
    apply In_nth_error in Hq as (j & Nj).
    assert (F : forall l st st', In j l -> for_list l (fun j (st : Rfield * Rfield * nat) => let '(best, second, idx) := st in
      let* b := vget d2 j in
      let* d := desc_dist p b in
      Ok (if (d <? best)%F then (d, best, j) else if (d <? second)%F then (best, d, idx) else st)) st <> Ok st').
    { induction l as [|k l IH]; intros [[best second] idx] st' Hl; [destruct Hl|]. cbn [for_list].
      destruct (vget d2 k) as [b| |] eqn:Vb; cbn [bind]; try discriminate.
      destruct Hl as [->|Hl].
      - rewrite (vget_ok _ _ _ Nj) in Vb. injection Vb as <-.
        unfold desc_dist. rewrite (proj2 (C79_range p q)) by auto. cbn [bind]. discriminate.
      - destruct (desc_dist p b); cbn [bind]; try discriminate. apply IH; auto. }
    eapply F; [|exact E]. apply in_seq. pose proof (nth_error_Some d2 j) as X. rewrite Nj in X.
    assert (j < length d2) by (apply X; discriminate). lia. }
  apply In_nth_error in Hp as (i & Ni).
  assert (Hi : In i (s (length d1))).
  { apply (sched1_in s); auto. apply nth_error_Some. rewrite Ni; discriminate. }
  assert (Hin : forall k, In k (s (length d1)) -> k < length d1) by (intros k Hk; apply (sched1_in s) in Hk; auto).
  revert Hi Hin. match goal with |- _ -> _ -> for_list _ ?f _ = _ => set (body := f) end.
  generalize (@nil (nat * nat)). induction (s (length d1)) as [|k l IH]; intros acc Hi Hin; [destruct Hi|].
  cbn [for_list]. unfold body at 1.
  assert (Hk := Hin k (or_introl eq_refl)).
  destruct (nth_error d1 k) as [a|] eqn:Na; [|apply nth_error_None in Na; lia].
  rewrite (vget_ok _ _ _ Na); cbn [bind].
  destruct Hi as [->|Hi].
  - replace a with p by congruence. rewrite S'. auto.
  - destruct (S a) as [->|(st & ->)]; cbn [bind]; auto. destruct st as [[best second] idx]. cbn [bind].
    apply IH; auto. intros; apply Hin; right; auto.
Qed.
Print Assumptions C52_lengths.

(** distances that are not below the largest finite value (an overflow of the default distance) are never chosen; when none is
    chosen a threshold above one reports the index 2^64 - 1 *)
Theorem C52_overflow (K : ofield) (big : K) {D} (dist : D -> D -> res K) a d2 ratio :
  d2 <> [] -> (forall b, In b d2 -> exists v, dist a b = Ok v /\ (v <? big)%F = false) ->
  find_raw_matches K big dist seq0 [a] d2 ratio = Ok (if (big <? ratio * ratio * big)%F then [(0, usub 0 1)] else []).
Proof.
  intros Hn Hd. unfold find_raw_matches. cbn [length Nat.eqb orb].
  destruct (length d2 =? 0) eqn:E2; [apply Nat.eqb_eq in E2; destruct d2; [congruence|discriminate]|].
  unfold seq0; cbn [seq for_list]. cbn [vget nth_error bind].
  assert (E : scan_best K big dist a d2 = Ok (big, big, usub 0 1)).
  { unfold scan_best, for_range.
    assert (F : forall l, (forall j, In j l -> j < length d2) -> for_list l (fun j (st : K * K * nat) => let '(best, second, idx) := st in
      let* b := vget d2 j in
      let* d := dist a b in
      Ok (if (d <? best)%F then (d, best, j) else if (d <? second)%F then (best, d, idx) else st)) (big, big, usub 0 1) = Ok (big, big, usub 0 1)).
    { induction l as [|j l IH]; intros Hl; auto. cbn [for_list].
      destruct (nth_error d2 j) as [b|] eqn:Nb.
      2: { apply nth_error_None in Nb. specialize (Hl j (or_introl eq_refl)). lia. }
      rewrite (vget_ok _ _ _ Nb); cbn [bind]. destruct (Hd b (nth_error_In _ _ Nb)) as (v & -> & Hv). cbn [bind]. rewrite Hv.
      apply IH. intros; apply Hl; right; auto. }
    apply F. intros j Hj. apply in_seq in Hj; lia. }
  rewrite E. cbn [bind app]. destruct (big <? ratio * ratio * big)%F; auto.
Qed.
Print Assumptions C52_overflow.

(** ** C53 *)
Definition mutual (K : ofield) (big : K) n1 n2 (d12 d21 : nat -> nat -> K) ratio (i j : nat) : Prop :=
  i < n1 /\ j < n2 /\
  is_nearest K n2 (d12 i) j /\ ratio_ok K big n2 (d12 i) ratio j /\
  is_nearest K n1 (d21 j) i /\ ratio_ok K big n1 (d21 j) ratio i.

Lemma robust_eq (K : ofield) (big : K) {D} (dist : D -> D -> res K) s1 s2 d1 d2 ratio m12 m21 :
  find_raw_matches K big dist s1 d1 d2 ratio = Ok m12 -> find_raw_matches K big dist s2 d2 d1 ratio = Ok m21 ->
  find_robust_matches K big dist s1 s2 d1 d2 ratio =
    Ok (filter (fun m1 => existsb (fun m2 => (fst m1 =? snd m2) && (snd m1 =? fst m2)) m21) m12).
Proof. intros E1 E2. unfold find_robust_matches. rewrite E1; cbn [bind]. rewrite E2; cbn [bind]. apply cross_check. Qed.

Theorem C53_robust (K : ofield) (big : K) {D} (dist : D -> D -> res K) s1 s2 d1 d2 ratio d12 d21 :
  sched1_ok s1 -> sched1_ok s2 -> distances K big dist d1 d2 d12 -> distances K big dist d2 d1 d21 ->
  exists ms, find_robust_matches K big dist s1 s2 d1 d2 ratio = Ok ms /\
    (forall i j, In (i, j) ms <-> mutual K big (length d1) (length d2) d12 d21 ratio i j) /\
    NoDup (map fst ms) /\ NoDup (map snd ms).
Proof.
  intros Hs1 Hs2 H12 H21.
  destruct (C52_raw K big dist s1 d1 d2 ratio d12 Hs1 H12) as (m12 & E1 & N1 & G1).
  destruct (C52_raw K big dist s2 d2 d1 ratio d21 Hs2 H21) as (m21 & E2 & N2 & G2).
  eexists; split; [eapply robust_eq; eauto|].
  assert (IN : forall i j, In (i, j) (filter (fun m1 => existsb (fun m2 => (fst m1 =? snd m2) && (snd m1 =? fst m2)) m21) m12) <->
    In (i, j) m12 /\ In (j, i) m21).
  { intros i j. rewrite filter_In, existsb_exists. split.
    - intros (A & (u, v) & B & C). cbn in C. apply andb_true_iff in C as (C1 & C2).
      apply Nat.eqb_eq in C1, C2; subst; auto.
    - intros (A & B). split; auto. exists (j, i); split; auto. cbn. rewrite !Nat.eqb_refl; auto. }
  assert (FN : forall (P : nat * nat -> bool) l, NoDup (map fst l) -> NoDup (map fst (filter P l))).
  { clear. induction l as [|a l IH]; cbn; intros H; auto. inversion H; subst. destruct (P a); cbn; auto. constructor; auto.
    intros X. apply in_map_iff in X as (b & E & X). apply filter_In in X as (X & _). apply H2. rewrite <- E. apply in_map; auto. }
  split; [|split].
  - intros i j. rewrite IN, G1, G2. unfold mutual, is_nearest, ratio_ok. tauto.
  - apply FN; auto.
  - assert (INJ : forall x y, In x (filter (fun m1 => existsb (fun m2 => (fst m1 =? snd m2) && (snd m1 =? fst m2)) m21) m12) ->
      In y (filter (fun m1 => existsb (fun m2 => (fst m1 =? snd m2) && (snd m1 =? fst m2)) m21) m12) -> snd x = snd y -> x = y).
    { intros (i, j) (i', j') Hx Hy E. cbn in E; subst j'. apply IN in Hx as (_ & Hx), Hy as (_ & Hy).
      assert (U : forall l, NoDup (map fst l) -> forall (k a b : nat), In (k, a) l -> In (k, b) l -> a = b).
      { clear. induction l as [|(u, v) l IH]; cbn; intros H k a b Ha Hb; [tauto|]. inversion H; subst.
        destruct Ha as [Ha|Ha], Hb as [Hb|Hb].
        - congruence.
        - injection Ha as -> ->. exfalso; apply H2. apply in_map_iff; exists (k, b); auto.
        - injection Hb as -> ->. exfalso; apply H2. apply in_map_iff; exists (k, a); auto.
        - eauto. }
      rewrite (U _ N2 _ _ _ Hx Hy); auto. }
    pose proof (FN (fun m1 => existsb (fun m2 => (fst m1 =? snd m2) && (snd m1 =? fst m2)) m21) _ N1) as ND.
    apply NoDup_map_inv in ND. revert ND INJ. clear.
    generalize (filter (fun m1 => existsb (fun m2 => (fst m1 =? snd m2) && (snd m1 =? fst m2)) m21) m12).
    induction l as [|x l IH]; cbn [map]; intros ND INJ; constructor.
    + intros X. apply in_map_iff in X as (y & E & X). inversion ND; subst. apply H1.
      rewrite <- (INJ y x); auto; cbn; auto.
    + inversion ND; subst. apply IH; auto. intros; apply INJ; cbn; auto.
Qed.
Print Assumptions C53_robust.

(** the result is the same set for every pair of schedules *)
Theorem C53_schedule (K : ofield) (big : K) {D} (dist : D -> D -> res K) s1 s2 s1' s2' d1 d2 ratio d12 d21 :
  sched1_ok s1 -> sched1_ok s2 -> sched1_ok s1' -> sched1_ok s2' ->
  distances K big dist d1 d2 d12 -> distances K big dist d2 d1 d21 ->
  exists ms ms', find_robust_matches K big dist s1 s2 d1 d2 ratio = Ok ms /\
    find_robust_matches K big dist s1' s2' d1 d2 ratio = Ok ms' /\ Permutation ms ms'.
Proof.
  intros A B A' B' H12 H21.
  destruct (C53_robust K big dist s1 s2 d1 d2 ratio d12 d21) as (ms & E & G & N & _); auto.
  destruct (C53_robust K big dist s1' s2' d1 d2 ratio d12 d21) as (ms' & E' & G' & N' & _); auto.
  exists ms, ms'. split; auto. split; auto.
  apply NoDup_Permutation; try (eapply NoDup_map_inv; eauto). intros (i, j). rewrite G, G'; tauto.
Qed.
Print Assumptions C53_schedule.

(** exchanging the two lists exchanges the members of the pairs *)
Theorem C53_symmetric (K : ofield) (big : K) {D} (dist : D -> D -> res K) s1 s2 s1' s2' d1 d2 ratio d12 d21 :
  sched1_ok s1 -> sched1_ok s2 -> sched1_ok s1' -> sched1_ok s2' ->
  distances K big dist d1 d2 d12 -> distances K big dist d2 d1 d21 ->
  exists ms ms', find_robust_matches K big dist s1 s2 d1 d2 ratio = Ok ms /\
    find_robust_matches K big dist s1' s2' d2 d1 ratio = Ok ms' /\ Permutation ms (map (fun p => (snd p, fst p)) ms').
Proof.
  intros A B A' B' H12 H21.
  destruct (C53_robust K big dist s1 s2 d1 d2 ratio d12 d21) as (ms & E & G & N & _); auto.
  destruct (C53_robust K big dist s1' s2' d2 d1 ratio d21 d12) as (ms' & E' & G' & _ & N'); auto.
  exists ms, ms'. split; auto. split; auto.
  apply NoDup_Permutation.
  - eapply NoDup_map_inv; eauto.
  - apply (NoDup_map_inv fst). rewrite map_map. cbn [fst]. auto.
  - intros (i, j). rewrite G, in_map_iff. split.
    + intros M. exists (j, i). split; auto. apply G'. unfold mutual in *; tauto.
    + intros ((u, v) & X & Y). injection X as <- <-. apply G' in Y. unfold mutual in *; tauto.
Qed.
Print Assumptions C53_symmetric.

(** cases over the rationals, descriptors of one number and the distance |a - b| *)
Definition qd (a b : Z) : res Qcfield := Ok (qc (Z.abs (a - b)) 1).
Definition raw_case : list (nat * nat) * list (nat * nat) * list (nat * nat) :=
  match find_raw_matches Qcfield (qc 1000 1) qd seq0 [0; 10; 21]%Z [11; 1; 30; 29]%Z (qc 4 5),
        find_raw_matches Qcfield (qc 1000 1) qd seq0 [11; 1; 30; 29]%Z [0; 10; 21]%Z (qc 4 5),
        find_robust_matches Qcfield (qc 1000 1) qd seq0 seq0 [0; 10; 21]%Z [11; 1; 30; 29]%Z (qc 4 5) with
  | Ok a, Ok b, Ok c => (a, b, c) | _, _, _ => ([], [], []) end.
Example C53_case : raw_case = ([(0, 1); (1, 0)], [(0, 1); (1, 0); (2, 2); (3, 2)], [(0, 1); (1, 0)]).
Proof. lazy. reflexivity. Qed.
Example C52_distances_case : distances Qcfield (qc 1000 1) qd [0; 10; 21]%Z [11; 1; 30; 29]%Z
  (fun i j => qc (Z.abs (nth i [0; 10; 21]%Z 0%Z - nth j [11; 1; 30; 29]%Z 0%Z)) 1).
Proof.
  intros i j Hi Hj. cbn [length] in *.
  do 2 eexists. split; [apply nth_error_nth' with (d := 0%Z); cbn; lia|]. split; [apply nth_error_nth' with (d := 0%Z); cbn; lia|].
  split; [reflexivity|].
  destruct i as [|[|[|]]]; try lia; destruct j as [|[|[|[|]]]]; try lia; vm_compute; reflexivity.
Qed.
Example C52_single_case : find_raw_matches Qcfield (qc 1000 1) qd seq0 [5]%Z [7]%Z (qc 1 2) = Ok [(0, 0)].
Proof. lazy. reflexivity. Qed.
