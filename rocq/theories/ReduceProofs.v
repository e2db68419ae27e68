(** ReduceProofs.v - lemmas about reductions and distances. *)
From Coq Require Import QArith Reals Lra Lia ZifyBool ZifyNat.
From Verif Require Import Base ImageModel ImageFacts PixelModel PixelProofs HistModel HistProofs InterpModel BigSum RSum ReduceModel.
Open Scope nat_scope.

(** ** std::reduce *)
Lemma reduces_rel {A} (op : A -> A -> A) (S : list A -> A -> Prop) l r :
  (forall a, S [a] a) -> (forall l1 l2 a b, S l1 a -> S l2 b -> S (l1 ++ l2) (op a b)) ->
  (forall l l' a, Permutation l l' -> S l a -> S l' a) -> reduces op l r -> S l r.
Proof. intros H1 H2 H3; induction 1; auto; eapply H3; [apply Permutation_sym; eassumption | auto]. Qed.

Definition zsum (l : list Z) : Z := fold_right Z.add 0%Z l.
Ltac zs := unfold zsum in *; cbn [fold_right map combine fst snd length fold_left] in *; try lia.
Lemma zsum_app l1 l2 : zsum (l1 ++ l2) = (zsum l1 + zsum l2)%Z.
Proof. unfold zsum; induction l1 as [|a l1 IH]; cbn [app fold_right]; [lia | rewrite IH; lia]. Qed.
Lemma zsum_perm l1 l2 : Permutation l1 l2 -> zsum l1 = zsum l2.
Proof. induction 1; zs. Qed.
Lemma zsum_fold l : forall s, fold_left Z.add l s = (s + zsum l)%Z.
Proof. induction l as [|a l IH]; intros s; zs; rewrite IH; lia. Qed.
Lemma zsum_abs l : (Z.abs (zsum l) <= zsum (map Z.abs l))%Z.
Proof. induction l as [|a l IH]; zs. Qed.

Lemma reduces_unsigned n l r : (0 <= n)%Z -> Forall (fun a => (0 <= a < 2 ^ n)%Z) l -> reduces (plus_unsigned n) l r -> r = (zsum l mod 2 ^ n)%Z.
Proof.
  intros Hn HF HR; revert HF; apply (reduces_rel (plus_unsigned n) (fun l r => Forall (fun a => (0 <= a < 2 ^ n)%Z) l -> r = (zsum l mod 2 ^ n)%Z)) with (4 := HR).
  - intros a F; inversion_clear F; cbn; rewrite Z.add_0_r, Z.mod_small; auto.
  - intros l1 l2 a b S1 S2 F; apply Forall_app in F as [F1 F2]; rewrite (S1 F1), (S2 F2), zsum_app; unfold plus_unsigned.
    rewrite <- Zplus_mod; reflexivity.
  - intros l1 l2 a P S F; rewrite <- (zsum_perm _ _ P); apply S; rewrite P; auto.
Qed.

Lemma reduces_signed lo hi l r : (lo <= 0 <= hi)%Z -> (zsum (map Z.abs l) <= Z.min (- lo) hi)%Z ->
  reduces (plus_signed lo hi) (map Ok l) r -> r = Ok (zsum l).
Proof.
  intros Hb HS HR.
  assert (G : forall zs, map Ok l = map Ok zs -> (zsum (map Z.abs zs) <= Z.min (- lo) hi)%Z -> r = Ok (zsum zs)).
  { apply (reduces_rel (plus_signed lo hi) (fun l r => forall zs, l = map Ok zs -> (zsum (map Z.abs zs) <= Z.min (- lo) hi)%Z -> r = Ok (zsum zs))) with (4 := HR).
    - intros a zs E _; destruct zs as [|z [|? ?]]; try discriminate; injection E as ->; cbn; f_equal; lia.
    - intros l1 l2 a b S1 S2 zs E B; symmetry in E; apply map_eq_app in E as (z1 & z2 & -> & <- & <-).
      rewrite map_app, zsum_app in B.
      assert (N1 : (0 <= zsum (map Z.abs z1))%Z) by (clear; induction z1; zs).
      assert (N2 : (0 <= zsum (map Z.abs z2))%Z) by (clear; induction z2; zs).
      rewrite (S1 z1), (S2 z2) by (auto; lia); cbn [plus_signed bind]; rewrite zsum_app.
      assert (A1 := zsum_abs z1); assert (A2 := zsum_abs z2).
      replace ((lo <=? zsum z1 + zsum z2)%Z && (zsum z1 + zsum z2 <=? hi)%Z) with true by lia; reflexivity.
    - intros l1 l2 a P S zs E B; subst l2; apply Permutation_map_inv in P as (zs' & -> & P).
      rewrite (zsum_perm _ _ P); apply S; auto.
      rewrite <- (zsum_perm _ _ (Permutation_map Z.abs P)); auto. }
  apply G; auto.
Qed.

Definition qsum (l : list Q) : Q := fold_right Qplus 0%Q l.
Lemma qsum_app l1 l2 : (qsum (l1 ++ l2) == qsum l1 + qsum l2)%Q.
Proof. unfold qsum; induction l1 as [|c l1 IH]; cbn [app fold_right]; [ring|]; rewrite IH; ring. Qed.
Lemma qsum_perm l1 l2 : Permutation l1 l2 -> (qsum l1 == qsum l2)%Q.
Proof.
  unfold qsum; induction 1 as [|a l1 l2 P IH|a b l|l1 l2 l3 P1 IH1 P2 IH2]; cbn [fold_right]; try reflexivity.
  - rewrite IH; reflexivity.
  - ring.
  - rewrite IH1; auto.
Qed.
Lemma reduces_q l r : reduces Qplus l r -> (r == qsum l)%Q.
Proof.
  intros HR; apply (reduces_rel Qplus (fun l r => (r == qsum l)%Q)) with (4 := HR).
  - intros a; unfold qsum; cbn [fold_right]; ring.
  - intros l1 l2 a b E1 E2; rewrite E1, E2, qsum_app; reflexivity.
  - intros l1 l2 a P E; rewrite E; apply qsum_perm; auto.
Qed.

Lemma reduces_nat l r : reduces Nat.add l r -> r = list_sum l.
Proof.
  intros HR; apply (reduces_rel Nat.add (fun l r => r = list_sum l)) with (4 := HR).
  - intros a; cbn; lia.
  - intros l1 l2 a b -> ->; rewrite list_sum_app; auto.
  - intros l1 l2 a P ->; clear - P; unfold list_sum; induction P; cbn [fold_right] in *; lia.
Qed.

Definition rsuml (l : list R) : R := fold_right Rplus 0%R l.
Lemma reduces_r l r : reduces Rplus l r -> r = rsuml l.
Proof.
  intros HR; apply (reduces_rel Rplus (fun l r => r = rsuml l)) with (4 := HR).
  - intros a; unfold rsuml; cbn [fold_right]; ring.
  - intros l1 l2 a b -> ->; clear; unfold rsuml; induction l1 as [|c l1 IH]; cbn [app fold_right]; [ring|]; rewrite <- IH; ring.
  - intros l1 l2 a P ->; clear - P; unfold rsuml; induction P; cbn [fold_right]; try congruence; ring.
Qed.

(** ** extrema *)
Section Extrema.
  Context {A : Type} (lt : A -> A -> bool).
  Hypothesis irr : forall a, lt a a = false.
  Hypothesis tr : forall a b c, lt a b = true -> lt b c = true -> lt a c = true.

  Lemma vmin_ok l : l <> [] -> exists m, vmin lt l = Ok m /\ In m l /\ forall x, In x l -> lt x m = false.
  Proof.
    destruct l as [|a l]; [congruence|]; intros _; eexists; split; [reflexivity|].
    assert (G : forall l seen m, In m seen -> (forall x, In x seen -> lt x m = false) ->
      In (fold_left (fun m x => if lt x m then x else m) l m) (seen ++ l) /\
      forall x, In x (seen ++ l) -> lt x (fold_left (fun m x => if lt x m then x else m) l m) = false).
    { clear a l; induction l as [|b l IH]; intros seen m Hm Hs; cbn [fold_left]; [rewrite app_nil_r; auto|].
      replace (seen ++ b :: l) with ((seen ++ [b]) ++ l) by (rewrite <- app_assoc; auto).
      destruct (lt b m) eqn:E; apply IH.
      - apply in_or_app; right; left; auto.
      - intros x Hx; apply in_app_or in Hx as [Hx|[<-|[]]]; auto.
        destruct (lt x b) eqn:E2; auto; specialize (tr _ _ _ E2 E); rewrite Hs in tr; auto.
      - apply in_or_app; auto.
      - intros x Hx; apply in_app_or in Hx as [Hx|[<-|[]]]; auto. }
    apply (G l [a] a); [left; auto | intros x [<-|[]]; auto].
  Qed.

  Lemma vmax_ok l : l <> [] -> exists m, vmax lt l = Ok m /\ In m l /\ forall x, In x l -> lt m x = false.
  Proof.
    destruct l as [|a l]; [congruence|]; intros _; eexists; split; [reflexivity|].
    assert (G : forall l seen m, In m seen -> (forall x, In x seen -> lt m x = false) ->
      In (fold_left (fun m x => if lt m x then x else m) l m) (seen ++ l) /\
      forall x, In x (seen ++ l) -> lt (fold_left (fun m x => if lt m x then x else m) l m) x = false).
    { clear a l; induction l as [|b l IH]; intros seen m Hm Hs; cbn [fold_left]; [rewrite app_nil_r; auto|].
      replace (seen ++ b :: l) with ((seen ++ [b]) ++ l) by (rewrite <- app_assoc; auto).
      destruct (lt m b) eqn:E; apply IH.
      - apply in_or_app; right; left; auto.
      - intros x Hx; apply in_app_or in Hx as [Hx|[<-|[]]]; auto.
        destruct (lt b x) eqn:E2; auto; specialize (tr _ _ _ E E2); rewrite Hs in tr; auto.
      - apply in_or_app; auto.
      - intros x Hx; apply in_app_or in Hx as [Hx|[<-|[]]]; auto. }
    apply (G l [a] a); [left; auto | intros x [<-|[]]; auto].
  Qed.

  Hypothesis neg : forall a b c, lt a b = false -> lt b c = false -> lt a c = false.

  Definition mm_ok (seen : list A) (s : A * A) : Prop :=
    In (fst s) seen /\ In (snd s) seen /\ forall x, In x seen -> lt x (fst s) = false /\ lt (snd s) x = false.

  Lemma lt_asym a b : lt a b = true -> lt b a = false.
  Proof. intros H; destruct (lt b a) eqn:E; auto; assert (T := tr _ _ _ H E); rewrite irr in T; discriminate. Qed.

  Lemma mm1_ok seen s b : mm_ok seen s -> mm_ok (seen ++ [b]) (mm1 lt b s).
  Proof.
    destruct s as [lo hi]; intros (H1 & H2 & H3); cbn [fst snd] in *.
    assert (HL : lt hi lo = false) by (apply H3; auto).
    unfold mm1; cbn [fst snd]; destruct (lt b lo) eqn:E1; [|destruct (lt b hi) eqn:E2].
    - split; [|split]; cbn [fst snd]; try (apply in_or_app; auto; right; left; auto; fail).
      intros x Hx; apply in_app_or in Hx as [Hx|[<-|[]]].
      + split; [eapply neg; [apply H3; auto | apply lt_asym; auto] | apply H3; auto].
      + split; auto; eapply neg; [exact HL | apply lt_asym; auto].
    - split; [|split]; cbn [fst snd]; try (apply in_or_app; auto; fail).
      intros x Hx; apply in_app_or in Hx as [Hx|[<-|[]]]; [apply H3; auto|]; split; auto; apply lt_asym; auto.
    - split; [|split]; cbn [fst snd]; try (apply in_or_app; auto; right; left; auto; fail).
      intros x Hx; apply in_app_or in Hx as [Hx|[<-|[]]].
      + split; [apply H3; auto|]; eapply neg; [exact E2 | apply H3; auto].
      + split; auto.
  Qed.

  Lemma mm2_ok seen s b c : mm_ok seen s -> mm_ok (seen ++ [b; c]) (mm2 lt b c s).
  Proof.
    destruct s as [lo hi]; intros (H1 & H2 & H3); cbn [fst snd] in *.
    unfold mm2; set (p := if lt c b then (c, b) else (b, c)).
    assert (P : (fst p = b \/ fst p = c) /\ (snd p = b \/ snd p = c) /\ forall x, x = b \/ x = c -> lt x (fst p) = false /\ lt (snd p) x = false).
    { unfold p; destruct (lt c b) eqn:E; cbn [fst snd]; (split; [auto|]; split; [auto|]); intros x [->| ->]; auto; split; auto; apply lt_asym; auto. }
    destruct p as [u v]; cbn [fst snd] in *; destruct P as (P1 & P2 & P3).
    split; [|split]; cbn [fst snd].
    - destruct (lt u lo); apply in_or_app; auto; right; destruct P1 as [<-| <-]; cbn; auto.
    - destruct (lt hi v) eqn:E; destruct (lt v hi); apply in_or_app; auto; right; destruct P2 as [<-| <-]; cbn; auto.
    - intros x Hx; apply in_app_or in Hx.
      assert (Hx' : In x seen \/ x = b \/ x = c) by (destruct Hx as [Hx|[<-|[<-|[]]]]; auto); clear Hx; split.
      + destruct (lt u lo) eqn:E.
        * destruct Hx' as [Hx|Hx]; [eapply neg; [apply H3; auto | apply lt_asym; auto] | apply P3; auto].
        * destruct Hx' as [Hx|Hx]; [apply H3; auto | eapply neg; [apply P3; eauto | auto]].
      + destruct (lt v hi) eqn:E.
        * destruct Hx' as [Hx|Hx]; [apply H3; auto | eapply neg; [apply lt_asym; eauto | apply P3; auto]].
        * destruct Hx' as [Hx|Hx]; [eapply neg; [exact E | apply H3; auto] | apply P3; auto].
  Qed.

  Lemma mm_loop_ok : forall n l seen s, length l <= n -> mm_ok seen s -> mm_ok (seen ++ l) (mm_loop lt l s).
  Proof.
    induction n as [|n IH]; intros l seen s L H.
    - destruct l; [|cbn in L; lia]; rewrite app_nil_r; auto.
    - destruct l as [|b [|c l]]; cbn [mm_loop].
      + rewrite app_nil_r; auto.
      + apply mm1_ok; auto.
      + replace (seen ++ b :: c :: l) with ((seen ++ [b; c]) ++ l) by (rewrite <- app_assoc; auto).
        apply IH; [cbn in L; lia | apply mm2_ok; auto].
  Qed.

  Lemma vminmax_ok l : l <> [] -> exists m, vminmax lt l = Ok m /\ mm_ok l m.
  Proof.
    destruct l as [|a [|b l]]; [congruence | |]; intros _; eexists; (split; [reflexivity|]).
    - split; [|split]; cbn; auto; intros x [<-|[]]; auto.
    - apply (mm_loop_ok (length l) l [a; b]); auto.
      destruct (lt b a) eqn:E; (split; [|split]); cbn; auto; intros x [<-|[<-|[]]]; auto; split; auto; apply lt_asym; auto.
  Qed.
End Extrema.

(** ** counting *)
Section Count.
  Context {A : Type} (eqb : A -> A -> bool).
  Hypothesis eqb_spec : forall a b, eqb a b = true <-> a = b.

  Definition hits (l : list A) (t : A) : list nat :=
    filter (fun i => match nth_error l i with Some x => eqb x t | None => false end) (seq 0 (length l)).

  Lemma filter_map_length {I J} (f : J -> bool) (g : I -> J) l : length (filter f (map g l)) = length (filter (fun i => f (g i)) l).
  Proof. induction l as [|i l IH]; cbn; auto; destruct (f (g i)); cbn; auto. Qed.

  Lemma hits_cons a l t : length (hits (a :: l) t) = (if eqb a t then 1 else 0) + length (hits l t).
  Proof.
    unfold hits; cbn [length seq filter nth_error]; rewrite <- seq_shift; destruct (eqb a t); cbn [length]; rewrite filter_map_length; reflexivity.
  Qed.

  Lemma hits_spec l t : NoDup (hits l t) /\ forall i, In i (hits l t) <-> nth_error l i = Some t.
  Proof.
    split; [apply NoDup_filter, seq_NoDup|]; intros i; unfold hits; rewrite filter_In, in_seq.
    destruct (nth_error l i) as [x|] eqn:E.
    - rewrite eqb_spec; split; [intros [_ ->]; auto | intros H; injection H as ->; split; auto].
      assert (i < length l) by (apply nth_error_Some; congruence); lia.
    - split; [intros [_ H]; discriminate | discriminate].
  Qed.

  Lemma count_hits (im : image A) t : im_count eqb im t = length (hits (pix im) t).
  Proof.
    unfold im_count; assert (G : forall l n, fold_left (fun n x => if eqb x t then n + 1 else n) l n = n + length (hits l t)).
    { induction l as [|a l IH]; intros n; [cbn; lia|]; rewrite hits_cons; cbn [fold_left]; rewrite IH; destruct (eqb a t); lia. }
    rewrite G; lia.
  Qed.

  Lemma count_policy_hits (im : image A) t n : im_count_policy eqb im t n -> n = length (hits (pix im) t).
  Proof.
    intros H; apply reduces_nat in H; rewrite H; cbn [list_sum fold_right].
    generalize (pix im); induction l as [|a l IH]; [reflexivity|]; rewrite hits_cons, <- IH; cbn; lia.
  Qed.

  Lemma replace_loop t v l : NoDup l -> forall p0 p, length p = length p0 -> (forall i, In i l -> i < length p0) ->
    (forall i, In i l -> nth_error p i = nth_error p0 i) ->
    exists q, for_list l (fun i r => let* x := vget r i in if eqb x t then vset r i v else Ok r) p = Ok q /\ length q = length p0 /\
      forall i, nth_error q i = if in_dec Nat.eq_dec i l then match nth_error p0 i with Some x => Some (if eqb x t then v else x) | None => None end else nth_error p i.
  Proof.
    induction l as [|k l IH]; intros ND p0 p L B H; cbn [for_list].
    - exists p; split; auto.
    - apply NoDup_cons_iff in ND as [NI ND].
      assert (Hk : k < length p) by (rewrite L; apply B; left; auto).
      destruct (vget_lt p k Hk) as (x & Ex & Nx); rewrite Ex; cbn [bind].
      set (p1 := if eqb x t then list_upd k v p else p).
      assert (E1 : (if eqb x t then vset p k v else Ok p) = Ok p1) by (unfold p1; destruct (eqb x t); [apply vset_ok; auto | auto]).
      rewrite E1; cbn [bind]; destruct (IH ND p0 p1) as (q & Eq & Lq & Hq).
      + unfold p1; destruct (eqb x t); [rewrite list_upd_length; auto | auto].
      + intros i Hi; apply B; right; auto.
      + intros i Hi; rewrite <- (H i) by (right; auto); unfold p1; destruct (eqb x t); auto; apply list_upd_other; intros ->; tauto.
      + exists q; split; auto; split; auto; intros i; rewrite Hq.
        destruct (in_dec Nat.eq_dec i l) as [I1|I1], (in_dec Nat.eq_dec i (k :: l)) as [I2|I2]; auto.
        * exfalso; apply I2; right; auto.
        * destruct I2 as [->|I2]; [|tauto]; rewrite <- (H i) by (left; auto); rewrite Nx; unfold p1.
          destruct (eqb x t); auto; apply list_upd_same; auto.
        * unfold p1; destruct (eqb x t); auto; apply list_upd_other; intros ->; apply I2; left; auto.
  Qed.
End Count.

(** ** Manhattan *)
Definition zdist (l1 l2 : list Z) : Z := zsum (map (fun ab => Z.abs (fst ab - snd ab)) (combine l1 l2)).
Lemma transform2_combine {A B C} (f : A -> B -> C) : forall l1 l2, length l1 = length l2 -> transform2 f l1 l2 = Ok (map (fun ab => f (fst ab) (snd ab)) (combine l1 l2)).
Proof. induction l1 as [|a l1 IH]; intros [|b l2] L; cbn in *; try lia; auto; rewrite IH by lia; reflexivity. Qed.

Lemma zdist_nonneg : forall l1 l2, (0 <= zdist l1 l2)%Z.
Proof. unfold zdist; induction l1 as [|a l1 IH]; intros [|b l2]; zs; specialize (IH l2); lia. Qed.
Lemma zdist_sym : forall l1 l2, zdist l1 l2 = zdist l2 l1.
Proof. unfold zdist; induction l1 as [|a l1 IH]; intros [|b l2]; zs; auto; rewrite IH; lia. Qed.
Lemma zdist_zero : forall l1 l2, length l1 = length l2 -> zdist l1 l2 = 0%Z <-> l1 = l2.
Proof.
  induction l1 as [|a l1 IH]; intros [|b l2] L; cbn in L; try lia; [cbn; tauto|].
  specialize (IH l2); pose proof (zdist_nonneg l1 l2) as N; unfold zdist in *; zs; split.
  - intros E; assert (a = b) by lia; assert (l1 = l2) by (apply IH; lia); congruence.
  - intros E; injection E as -> ->; assert (fold_right Z.add 0 (map (fun ab : Z * Z => Z.abs (fst ab - snd ab)) (combine l2 l2)) = 0)%Z by (apply IH; auto); lia.
Qed.
Lemma zdist_tri : forall l1 l2 l3, length l1 = length l2 -> length l2 = length l3 -> (zdist l1 l3 <= zdist l1 l2 + zdist l2 l3)%Z.
Proof.
  unfold zdist; induction l1 as [|a l1 IH]; intros [|b l2] [|c l3] L1 L2; cbn [length] in *; zs; specialize (IH l2 l3); lia.
Qed.

Lemma transform2M_UB {B C D} (f : B -> C -> res D) : forall l1 l2 k a b, length l1 = length l2 -> nth_error l1 k = Some a -> nth_error l2 k = Some b -> f a b = UB ->
  (forall a b, f a b = UB \/ exists v, f a b = Ok v) -> transform2M f l1 l2 = UB.
Proof.
  induction l1 as [|x l1 IH]; intros [|y l2] k a b L H1 H2 HU HT; [destruct k; discriminate .. |].
  cbn [transform2M]; destruct (HT x y) as [E|[v E]]; rewrite E; cbn [bind]; auto.
  destruct k as [|k]; cbn in H1, H2; [congruence|]; rewrite (IH l2 k a b); auto.
Qed.

Lemma manhattan_ok hi x y : wf x -> wf y -> dims x = dims y -> 0 < prodn (dims x) ->
  (forall k a b, nth_error (pix x) k = Some a -> nth_error (pix y) k = Some b -> (Z.abs (a - b) <= hi)%Z) ->
  manhattan_distance hi x y = Ok (zdist (pix x) (pix y)).
Proof.
  intros Wx Wy E Hp Hb; unfold manhattan_distance.
  replace (size_eqb (dims x) (dims y)) with true by (unfold size_eqb; destruct (list_eq_dec Nat.eq_dec (dims x) (dims y)); congruence); cbn [negb].
  unfold difference_ty; rewrite (transform2M_spec _ (fun a b => Z.abs (a - b))).
  2:{ intros k a b Ha Hb'; unfold abs_diff; specialize (Hb k a b Ha Hb'); cbv zeta.
      assert (D : (if (b <? a)%Z then (a - b)%Z else (b - a)%Z) = Z.abs (a - b)) by (destruct (b <? a)%Z eqn:El; lia).
      rewrite D; replace (Z.abs (a - b) <=? hi)%Z with true by lia; reflexivity. }
  assert (L : length (pix x) = length (pix y)) by (unfold wf in *; congruence).
  rewrite transform2_combine by auto; cbn [bind]; unfold image_data.
  set (p := map _ _); assert (Lp : length p = prodn (dims x)).
  { unfold p; rewrite map_length, combine_length, <- L, Nat.min_id; exact Wx. }
  destruct p as [|v q] eqn:Ep; [cbn in Lp; lia|]; rewrite Lp, Nat.eqb_refl; cbn [bind negb]; f_equal.
  unfold recursive_reduce1; cbn [pix]; rewrite (zsum_fold (v :: q)), <- Ep; reflexivity.
Qed.

(** ** Euclid *)
Definition sqd (l : list (R * R)) : R := rsuml (map (fun ab => (fst ab - snd ab) ^ 2)%R l).

Lemma rsuml_nonneg l : (forall a, In a l -> 0 <= a)%R -> (0 <= rsuml l)%R.
Proof. induction l as [|a l IH]; intros H; [cbn; lra|]; change (rsuml (a :: l)) with (a + rsuml l)%R; assert (0 <= a)%R by (apply H; left; auto); assert (0 <= rsuml l)%R by (apply IH; intros; apply H; right; auto); lra. Qed.
Lemma sqd_nonneg l : (0 <= sqd l)%R.
Proof. apply rsuml_nonneg; intros a Ha; apply in_map_iff in Ha as (p & <- & _); apply pow2_ge_0. Qed.

Lemma sqd_cons a b l : sqd ((a, b) :: l) = ((a - b) ^ 2 + sqd l)%R.
Proof. reflexivity. Qed.
Lemma sqd_sym : forall l1 l2, sqd (combine l1 l2) = sqd (combine l2 l1).
Proof. induction l1 as [|a l1 IH]; intros [|b l2]; cbn [combine]; auto; rewrite !sqd_cons, IH; ring. Qed.
Lemma sqd_zero : forall l1 l2, length l1 = length l2 -> sqd (combine l1 l2) = 0%R <-> l1 = l2.
Proof.
  induction l1 as [|a l1 IH]; intros [|b l2] L; cbn in L; try lia; cbn [combine]; [split; auto|].
  rewrite sqd_cons; assert (N := sqd_nonneg (combine l1 l2)); assert (P := pow2_ge_0 (a - b)); split.
  - intros E; assert (S : sqd (combine l1 l2) = 0%R) by lra; apply IH in S; [|lia].
    assert (D : ((a - b) ^ 2)%R = 0%R) by lra.
    assert (a = b) by nra; congruence.
  - intros E; injection E as -> ->; rewrite (proj2 (IH l2 eq_refl)) by auto; ring.
Qed.

(** Cauchy-Schwarz and Minkowski *)
Definition dot (l : list (R * R)) : R := rsuml (map (fun uv => fst uv * snd uv)%R l).
Definition nrm (l : list R) : R := rsuml (map (fun u => u * u)%R l).
Lemma nrm_nonneg l : (0 <= nrm l)%R.
Proof. apply rsuml_nonneg; intros a Ha; apply in_map_iff in Ha as (p & <- & _); nra. Qed.

Lemma cauchy : forall l, ((dot l) ^ 2 <= nrm (map fst l) * nrm (map snd l))%R.
Proof.
  induction l as [|[a b] l IH]; [unfold dot, nrm; cbn; lra|].
  unfold dot, nrm in *; cbn [map fst snd rsuml fold_right] in *; fold rsuml in *.
  assert (NA := nrm_nonneg (map fst l)); assert (NB := nrm_nonneg (map snd l)); unfold nrm in NA, NB.
  set (C := fold_right Rplus 0%R (map (fun uv : R * R => (fst uv * snd uv)%R) l)) in *.
  change (fold_right Rplus 0%R (map (fun u => (u * u)%R) (map fst l))) with (rsuml (map (fun u => (u * u)%R) (map fst l))).
  change (fold_right Rplus 0%R (map (fun u => (u * u)%R) (map snd l))) with (rsuml (map (fun u => (u * u)%R) (map snd l))).
  change C with (rsuml (map (fun uv : R * R => (fst uv * snd uv)%R) l)) in *.
  set (c := rsuml (map (fun uv : R * R => (fst uv * snd uv)%R) l)) in *.
  set (A := rsuml (map (fun u => (u * u)%R) (map fst l))) in *.
  set (B := rsuml (map (fun u => (u * u)%R) (map snd l))) in *; clearbody c A B; clear C.
  assert (K : (2 * (c * (a * b)) <= A * (b * b) + B * (a * a))%R).
  { assert (Q : ((2 * (c * (a * b))) ^ 2 <= (A * (b * b) + B * (a * a)) ^ 2)%R).
    { assert (S : (0 <= (A * (b * b) - B * (a * a)) ^ 2)%R) by apply pow2_ge_0.
      assert (M : (0 <= (a * b) ^ 2 * (A * B - c ^ 2))%R) by (apply Rmult_le_pos; [apply pow2_ge_0 | lra]).
      nra. }
    assert (P : (0 <= A * (b * b) + B * (a * a))%R) by nra.
    destruct (Rle_dec (2 * (c * (a * b))) (A * (b * b) + B * (a * a))) as [|N]; auto; exfalso; nra. }
  nra.
Qed.

Lemma minkowski : forall l, (sqrt (nrm (map (fun uv => fst uv + snd uv)%R l)) <= sqrt (nrm (map fst l)) + sqrt (nrm (map snd l)))%R.
Proof.
  intros l; assert (E : nrm (map (fun uv => fst uv + snd uv)%R l) = (nrm (map fst l) + 2 * dot l + nrm (map snd l))%R).
  { unfold nrm, dot, rsuml; induction l as [|[a b] l IH]; cbn [map fold_right fst snd] in *; [ring|]; rewrite IH; ring. }
  rewrite E; assert (C := cauchy l); assert (NA := nrm_nonneg (map fst l)); assert (NB := nrm_nonneg (map snd l)).
  set (A := nrm (map fst l)) in *; set (B := nrm (map snd l)) in *; clearbody A B.
  assert (SA := sqrt_pos A); assert (SB := sqrt_pos B); assert (QA := sqrt_sqrt A NA); assert (QB := sqrt_sqrt B NB).
  assert (D : (dot l <= sqrt A * sqrt B)%R).
  { rewrite <- sqrt_mult by auto; destruct (Rle_dec (dot l) 0) as [N|N]; [assert (S := sqrt_pos (A * B)); lra|].
    rewrite <- (sqrt_pow2 (dot l)) by lra; apply sqrt_le_1; [apply pow2_ge_0 | nra | auto]. }
  rewrite <- (sqrt_pow2 (sqrt A + sqrt B)) by lra; apply sqrt_le_1_alt; nra.
Qed.

Lemma sqd_tri : forall l1 l2 l3, length l1 = length l2 -> length l2 = length l3 ->
  (sqrt (sqd (combine l1 l3)) <= sqrt (sqd (combine l1 l2)) + sqrt (sqd (combine l2 l3)))%R.
Proof.
  intros l1 l2 l3 L1 L2.
  assert (G : exists l, sqd (combine l1 l3) = nrm (map (fun uv => fst uv + snd uv)%R l) /\ sqd (combine l1 l2) = nrm (map fst l) /\ sqd (combine l2 l3) = nrm (map snd l)).
  { revert l2 l3 L1 L2; induction l1 as [|a l1 IH]; intros [|b l2] [|c l3] L1 L2; cbn in L1, L2; try lia; [exists []; cbn; auto|].
    destruct (IH l2 l3) as (l & E1 & E2 & E3); [lia | lia|]; exists ((a - b, b - c)%R :: l); cbn [combine]; rewrite !sqd_cons, E1, E2, E3.
    unfold nrm; cbn [map fst snd rsuml fold_right]; split; [|split]; unfold rsuml; ring. }
  destruct G as (l & -> & -> & ->); apply minkowski.
Qed.

Lemma euclid_ok {A} (conv : A -> R) x y r : wf x -> wf y -> dims x = dims y ->
  euclidean_distance (fun a b => conv a - conv b)%R x y r <-> r = Ok (sqrt (sqd (combine (map conv (pix x)) (map conv (pix y))))).
Proof.
  intros Wx Wy E; unfold euclidean_distance.
  replace (size_eqb (dims x) (dims y)) with true by (unfold size_eqb; destruct (list_eq_dec Nat.eq_dec (dims x) (dims y)); congruence); cbn [negb].
  assert (L : length (pix x) = length (pix y)) by (unfold wf in *; congruence).
  rewrite <- L, Nat.eqb_refl, transform2_combine by auto.
  set (p := map _ _).
  assert (S : rsuml (0%R :: p) = sqd (combine (map conv (pix x)) (map conv (pix y)))).
  { unfold p, sqd, rsuml; cbn [fold_right]; rewrite Rplus_0_l; clear; generalize (pix y); induction (pix x) as [|a l IH]; intros [|b m]; cbn [map combine fold_right fst snd]; auto; rewrite IH; reflexivity. }
  split.
  - intros (p' & s & Ep & HR & ->); injection Ep as <-; apply reduces_r in HR; rewrite HR, S; auto.
  - intros ->; destruct (reduces_exists Rplus (0%R :: p)) as [s Hs]; [discriminate|].
    exists p, s; split; auto; split; auto; apply reduces_r in Hs; rewrite Hs, S; auto.
Qed.
