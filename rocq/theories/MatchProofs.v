(** MatchProofs.v - facts about the matching of descriptors. *)
From Coq Require Import Lia Permutation.
From Verif Require Import Base OField PixelModel PixelProofs MatchModel.
Open Scope nat_scope.

Section Match.
  Variable K : ofield.
  Add Field KF : (f_field K).
  Variable big : K.
  Context {D : Type} (dist : D -> D -> res K).
  Open Scope field_scope.

  (** state after the first [j] candidates *)
  Definition scan_inv (d : nat -> K) (j : nat) (st : K * K * nat) : Prop :=
    let '(best, second, idx) := st in
    (second <? best) = false /\ (big <? second) = false /\
    (j = 0%nat -> best = big /\ second = big /\ idx = usub 0 1) /\
    ((0 < j)%nat -> (idx < j)%nat /\ best = d idx /\
      (forall k, (k < idx)%nat -> (best <? d k) = true) /\
      (forall k, (k < j)%nat -> (d k <? best) = false) /\
      (forall k, (k < j)%nat -> k <> idx -> (d k <? second) = false) /\
      (second = big \/ exists k, (k < j)%nat /\ k <> idx /\ second = d k)).

  Lemma scan_best_ok a d2 (d : nat -> K) :
    (forall j, (j < length d2)%nat -> exists b, nth_error d2 j = Some b /\ dist a b = Ok (d j)) ->
    (forall j, (j < length d2)%nat -> (d j <? big) = true) ->
    exists st, scan_best K big dist a d2 = Ok st /\ scan_inv d (length d2) st.
  Proof.
    intros Hd Hb. unfold scan_best.
    apply (for_range_inv (length d2) (fun j st => scan_inv d j st)).
    - unfold scan_inv. rewrite !f_irrefl. repeat split; auto; intros; try lia.
    - intros j st Hj I. destruct st as [[best second] idx].
      destruct (Hd j Hj) as (b & Nb & Db). pose proof (Hb j Hj) as Bj.
      rewrite (vget_ok _ _ _ Nb); cbn [bind]; rewrite Db; cbn [bind].
      eexists; split; [reflexivity|].
      destruct I as (I1 & I2 & I3 & I4).
      destruct (d j <? best) eqn:E1; [|destruct (d j <? second) eqn:E2].
      + unfold scan_inv. split; [apply f_asym; auto|]. split.
        { apply (f_le_trans K best second big); auto. }
        split; [intros; lia|]. intros _.
        split; [lia|]. split; [auto|].
        destruct (Nat.eq_dec j 0) as [->|J0].
        { destruct (I3 eq_refl) as (-> & -> & _).
          split; [intros; lia|]. split; [intros k Hk; assert (k = 0)%nat by lia; subst; apply f_irrefl|].
          split; [intros; lia|]. left; auto. }
        destruct (I4 ltac:(lia)) as (A1 & A2 & A3 & A4 & A5 & A6).
        split; [intros k Hk; destruct (best <? d k) eqn:E; [eapply f_trans; eauto|
           assert (d k = best) by (apply f_total; [apply A4; lia|auto]); congruence]|].
        split; [intros k Hk; destruct (Nat.eq_dec k j) as [->|]; [apply f_irrefl|];
           apply (f_le_trans K (d j) best (d k)); [apply f_asym; auto | apply A4; lia]|].
        split; [intros k Hk Nk; apply A4; lia|].
        right; exists idx; repeat split; auto; lia.
      + destruct (Nat.eq_dec j 0) as [->|J0].
        { destruct (I3 eq_refl) as (-> & -> & _); congruence. }
        unfold scan_inv. split; [auto|]. split; [apply (f_le_trans K (d j) second big); auto; apply f_asym; auto|].
        split; [intros; lia|]. intros _.
        destruct (I4 ltac:(lia)) as (A1 & A2 & A3 & A4 & A5 & A6).
        split; [lia|]. split; [auto|]. split; [auto|].
        split; [intros k Hk; destruct (Nat.eq_dec k j) as [->|]; auto; apply A4; lia|].
        split; [intros k Hk Nk; destruct (Nat.eq_dec k j) as [->|]; [apply f_irrefl|];
           apply (f_le_trans K (d j) second (d k)); [apply f_asym; auto | apply A5; auto; lia]|].
        right; exists j; repeat split; auto; lia.
      + destruct (Nat.eq_dec j 0) as [->|J0].
        { destruct (I3 eq_refl) as (-> & -> & _); congruence. }
        unfold scan_inv. split; [auto|]. split; [auto|]. split; [intros; lia|]. intros _.
        destruct (I4 ltac:(lia)) as (A1 & A2 & A3 & A4 & A5 & A6).
        split; [lia|]. split; [auto|]. split; [auto|].
        split; [intros k Hk; destruct (Nat.eq_dec k j) as [->|]; auto; apply A4; lia|].
        split; [intros k Hk Nk; destruct (Nat.eq_dec k j) as [->|]; auto; apply A5; auto; lia|].
        destruct A6 as [->|(k & Hk & Nk & ->)]; [left; auto|right; exists k; repeat split; auto; lia].
  Qed.

  (** ** the specification of a raw match *)
  (** [j] is the first of the nearest among [n2] candidates at the distances [d] *)
  Definition nearest (n2 : nat) (d : nat -> K) (j : nat) : Prop :=
    (j < n2)%nat /\ (forall k, (k < n2)%nat -> (d k <? d j) = false) /\ (forall k, (k < j)%nat -> (d j <? d k) = true).
  (** ratio test against every other candidate, and against [big] *)
  Definition passes (n2 : nat) (d : nat -> K) (ratio : K) (j : nat) : Prop :=
    (d j <? ratio * ratio * big) = true /\
    forall k, (k < n2)%nat -> k <> j -> (d j <? ratio * ratio * d k) = true.

  Lemma sq_mono (r x y : K) : (y <? x) = false -> (r * r * y <? r * r * x) = false.
  Proof.
    intros H. destruct (x <? y) eqn:E.
    2: { rewrite (f_total K x y E H); apply f_irrefl. }
    destruct (feq_dec K r 0) as [->|N].
    { replace (0 * 0 * y) with (0 * 0 * x) by ring; apply f_irrefl. }
    apply f_asym. 
    assert (P : (0 <? r * r) = true).
    { destruct (0 <? r) eqn:E1; [apply f_mul_pos; auto|].
      destruct (r <? 0) eqn:E2; [|exfalso; apply N; apply f_total; auto].
      pose proof (f_neg_pos K _ E2) as P. replace (r * r) with (- r * - r) by ring. apply f_mul_pos; auto. }
    apply (f_add_lt K _ _ (- x)) in E. replace (x + - x) with (0 : K) in E by ring.
    pose proof (f_mul_pos K _ _ P E) as Q. apply (f_add_lt K _ _ (r * r * x)) in Q.
    replace (0 + r * r * x) with (r * r * x) in Q by ring.
    replace (r * r * (y + - x) + r * r * x) with (r * r * y) in Q by ring. auto.
  Qed.

  Lemma lt_le_trans (a b c : K) : (a <? b) = true -> (c <? b) = false -> (a <? c) = true.
  Proof.
    intros H1 H2. destruct (b <? c) eqn:E; [eapply f_trans; eauto|].
    rewrite <- (f_total K b c E H2); auto.
  Qed.

  Lemma scan_match d n2 ratio best second idx : (0 < n2)%nat -> scan_inv d n2 (best, second, idx) ->
    (forall k, (k < n2)%nat -> (d k <? big) = true) ->
    forall j, ((best <? ratio * ratio * second) = true /\ idx = j) <-> (nearest n2 d j /\ passes n2 d ratio j).
  Proof.
    intros Hn (I1 & I2 & _ & I4) Hb j. destruct (I4 Hn) as (A1 & A2 & A3 & A4 & A5 & A6). subst best.
    split.
    - intros (T & <-). split; [split; [auto|split; auto]|].
      split.
      + eapply lt_le_trans; eauto. apply sq_mono; auto.
      + intros k Hk Nk. eapply lt_le_trans; eauto. apply sq_mono; auto.
    - intros ((N1 & N2 & N3) & (P1 & P2)).
      assert (idx = j) as <-.
      { destruct (Nat.lt_trichotomy idx j) as [L|[L|L]]; auto.
        - pose proof (N3 _ L) as X. rewrite (A4 j N1) in X; discriminate.
        - pose proof (A3 _ L) as X. rewrite (N2 idx A1) in X; discriminate. }
      split; auto. destruct A6 as [->|(k & Hk & Nk & ->)]; auto.
  Qed.

  (** ** find_raw_matches *)
  Definition raw_list (g : nat -> option nat) (l : list nat) : list (nat * nat) :=
    flat_map (fun i => match g i with Some j => [(i, j)] | None => [] end) l.

  Lemma in_raw_list g l i j : In (i, j) (raw_list g l) <-> In i l /\ g i = Some j.
  Proof.
    unfold raw_list. rewrite in_flat_map. split.
    - intros (x & Hx & H). destruct (g x) eqn:E; cbn in H; [|tauto]. destruct H as [H|[]]. inversion H; subst; auto.
    - intros (H & E). exists i; split; auto. rewrite E; cbn; auto.
  Qed.

  Lemma raw_list_fst g l : NoDup l -> NoDup (map fst (raw_list g l)).
  Proof.
    induction l as [|i l IH]; intros H; [constructor|]. inversion H; subst.
    unfold raw_list in *; cbn. destruct (g i) as [j|]; cbn; auto. constructor; auto.
    intros X. apply in_map_iff in X as ((a, b) & E & X). cbn in E; subst a.
    apply in_raw_list in X as (X & _); auto.
  Qed.

  Lemma raw_list_perm g l l' : Permutation l l' -> Permutation (raw_list g l) (raw_list g l').
  Proof. apply Permutation_flat_map. Qed.

  Lemma raw_matches_ok s d1 d2 ratio (d : nat -> nat -> K) :
    sched1_ok s ->
    (forall i j, (i < length d1)%nat -> (j < length d2)%nat ->
      exists a b, nth_error d1 i = Some a /\ nth_error d2 j = Some b /\ dist a b = Ok (d i j) /\ (d i j <? big) = true) ->
    exists g, (forall s', sched1_ok s' -> find_raw_matches K big dist s' d1 d2 ratio = Ok (raw_list g (s' (length d1)))) /\
      forall i j, (i < length d1)%nat -> (g i = Some j <-> nearest (length d2) (d i) j /\ passes (length d2) (d i) ratio j).
  Proof.
    intros Hs Hd.
    destruct (length d1 =? 0)%nat eqn:E1.
    { exists (fun _ => None). apply Nat.eqb_eq in E1. split.
      - intros s' Hs'. unfold find_raw_matches. rewrite E1; cbn. f_equal. symmetry.
        pose proof (Permutation_length (Hs' 0%nat)) as L. destruct (s' 0%nat); [auto|discriminate].
      - intros; lia. }
    destruct (length d2 =? 0)%nat eqn:E2.
    { exists (fun _ => None). split.
      - intros s' Hs'. unfold find_raw_matches. rewrite E2, orb_true_r. f_equal.
        unfold raw_list. induction (s' (length d1)); auto.
      - apply Nat.eqb_eq in E2; rewrite E2. intros i j Hi; split; [discriminate|]. intros ((X & _) & _); lia. }
    exists (fun i => match (let* a := vget d1 i in scan_best K big dist a d2) with
                     | Ok (best, second, idx) => if best <? ratio * ratio * second then Some idx else None
                     | _ => None end).
    apply Nat.eqb_neq in E2.
    assert (S : forall i, (i < length d1)%nat -> exists a st, vget d1 i = Ok a /\ scan_best K big dist a d2 = Ok st /\ scan_inv (d i) (length d2) st).
    { intros i Hi. destruct (Hd i 0%nat Hi ltac:(lia)) as (a & _ & Na & _).
      destruct (scan_best_ok a d2 (d i)) as (st & Es & Is).
      - intros j Hj. destruct (Hd i j Hi Hj) as (a' & b & Na' & Nb & Db & _). replace a' with a in * by congruence. eauto.
      - intros j Hj. destruct (Hd i j Hi Hj) as (a' & b & _ & _ & _ & X); auto.
      - exists a, st. split; [apply vget_ok; auto|auto]. }
    split.
    - intros s' Hs'. unfold find_raw_matches. rewrite E1. apply Nat.eqb_neq in E2; rewrite E2. cbn [orb].
      assert (Hl : forall l acc, (forall i, In i l -> (i < length d1)%nat) ->
        for_list l (fun i matches =>
        let* a := vget d1 i in
        let* st := scan_best K big dist a d2 in
        let '(best, second, idx) := st in
        Ok (if (best <? ratio * ratio * second) then matches ++ [(i, idx)] else matches)) acc =
        Ok (acc ++ raw_list (fun i => match (let* a := vget d1 i in scan_best K big dist a d2) with
                     | Ok (best, second, idx) => if best <? ratio * ratio * second then Some idx else None
                     | _ => None end) l)).
      { induction l as [|i l IH]; intros acc Hl; [cbn; rewrite app_nil_r; auto|].
        cbn [for_list raw_list flat_map]. destruct (S i (Hl i (or_introl eq_refl))) as (a & st & Ea & Es & _).
        rewrite Ea; cbn [bind]. rewrite Es. destruct st as [[best second] idx]. cbn [bind].
        rewrite IH by (intros; apply Hl; right; auto).
        destruct (best <? ratio * ratio * second); cbn [app]; auto. rewrite <- app_assoc; auto. }
      rewrite Hl; auto. intros i Hi. apply (sched1_in s') in Hi; auto.
    - intros i j Hi. destruct (S i Hi) as (a & st & Ea & Es & Is). rewrite Ea; cbn [bind]. rewrite Es.
      destruct st as [[best second] idx].
      rewrite <- (scan_match (d i) (length d2) ratio best second idx) by
        (try lia; auto; intros k Hk; destruct (Hd i k Hi Hk) as (? & ? & _ & _ & _ & X); auto).
      destruct (best <? ratio * ratio * second); split; try discriminate; try (intros (? & _); discriminate).
      + intros X; injection X as ->; auto.
      + intros (_ & ->); auto.
  Qed.

  (** ** find_robust_matches *)
  Lemma cross_check (m12 m21 : list (nat * nat)) :
    for_list m12 (fun m1 robust =>
      let* r := for_list m21 (fun m2 (st : list (nat * nat) * bool) =>
        let '(robust, stop) := st in
        if stop then Ok st
        else if (fst m1 =? snd m2)%nat && (snd m1 =? fst m2)%nat then Ok (robust ++ [m1], true) else Ok st) (robust, false) in
      Ok (fst r)) [] =
    Ok (filter (fun m1 => existsb (fun m2 => (fst m1 =? snd m2)%nat && (snd m1 =? fst m2)%nat) m21) m12).
  Proof.
    assert (In1 : forall m1 l robust stop, for_list l (fun m2 (st : list (nat * nat) * bool) =>
        let '(robust, stop) := st in
        if stop then Ok st
        else if (fst m1 =? snd m2)%nat && (snd m1 =? fst m2)%nat then Ok (robust ++ [m1], true) else Ok st) (robust, stop) =
        Ok (if stop then (robust, true) else
          if existsb (fun m2 => (fst m1 =? snd m2)%nat && (snd m1 =? fst m2)%nat) l then (robust ++ [m1], true) else (robust, false))).
    { intros m1; induction l as [|m2 l IH]; intros robust stop; [destruct stop; auto|].
      cbn [for_list existsb]. destruct stop; cbn [bind]; [rewrite IH; auto|].
      destruct ((fst m1 =? snd m2)%nat && (snd m1 =? fst m2)%nat); cbn [bind orb]; rewrite IH; auto. }
    assert (Out : forall l acc, for_list l (fun m1 robust =>
      let* r := for_list m21 (fun m2 (st : list (nat * nat) * bool) =>
        let '(robust, stop) := st in
        if stop then Ok st
        else if (fst m1 =? snd m2)%nat && (snd m1 =? fst m2)%nat then Ok (robust ++ [m1], true) else Ok st) (robust, false) in
      Ok (fst r)) acc =
      Ok (acc ++ filter (fun m1 => existsb (fun m2 => (fst m1 =? snd m2)%nat && (snd m1 =? fst m2)%nat) m21) l)).
    { induction l as [|m1 l IH]; intros acc; [cbn; rewrite app_nil_r; auto|].
      cbn [for_list filter]. rewrite In1; cbn [bind].
      destruct (existsb _ m21); cbn [fst]; rewrite IH; auto. rewrite <- app_assoc; auto. }
    rewrite Out; auto.
  Qed.
End Match.
