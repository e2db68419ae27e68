(** RoundProofs.v - facts about rounding (RoundModel.v) *)
From Coq Require Import ZArith Reals Bool List Lia Lra ZifyBool Permutation.
From Verif Require Import Base ImageModel FloatModel FloatProofs RoundModel.
Import ListNotations.
Open Scope Z_scope.
Ltac Zify.zify_post_hook ::= Z.div_mod_to_equations.

(** ** the finite doubles in order, numbered by [key] *)
Definition top : Z := 2047 * 2 ^ 52.
Definition pat (k : Z) : bits := if k <? 0 then 2 ^ 63 - k else k.
Definition steps (k : Z) : Z := key_units (pat k).
Definition unit_ : R := powerRZ 2 (-1074).
Lemma unit_pos : (0 < unit_)%R. Proof. apply pw_pos. Qed.

Lemma pat_fields k : - top < k < top -> pattern (pat k) /\ key (pat k) = k /\ expo (pat k) <> 2047.
Proof.
  intros H; assert (H' : - 9218868437227405312 < k < 9218868437227405312) by (unfold top in H; change (2047 * 2 ^ 52) with 9218868437227405312 in H; exact H).
  clear H; unfold pattern, key, magnitude, sign, expo, pat; change (2 ^ 64) with 18446744073709551616; change (2 ^ 63) with 9223372036854775808; change (2 ^ 52) with 4503599627370496; change (2 ^ 11) with 2048.
  destruct (k <? 0) eqn:E; [destruct (9223372036854775808 <=? 9223372036854775808 - k) eqn:F|destruct (9223372036854775808 <=? k) eqn:F]; lia.
Qed.
Lemma steps_lt j k : - top < j < top -> - top < k < top -> j < k <-> steps j < steps k.
Proof.
  intros Hj Hk; destruct (pat_fields j Hj) as (P1 & K1 & E1), (pat_fields k Hk) as (P2 & K2 & E2).
  unfold steps; rewrite <- key_units_lt by assumption; rewrite K1, K2; reflexivity.
Qed.
Lemma steps_up j k : - top < j -> k < top -> j < k -> steps j < steps k.
Proof. intros H1 H2 H3; apply (proj1 (steps_lt j k ltac:(lia) ltac:(lia))), H3. Qed.
Lemma means_fin_key b r : means b (Fin r) <-> pattern b /\ expo b <> 2047 /\ r = (IZR (key_units b) * unit_)%R.
Proof.
  split.
  - intros M; pose proof (means_pattern _ _ M) as P; apply means_meaning in M; [|exact P]; split; [exact P|].
    assert (E : expo b <> 2047) by (intros E; unfold meaning in M; rewrite E in M; cbn - [powerRZ] in M; destruct (frac b =? 0); discriminate).
    split; [exact E|]; rewrite meaning_key in M by exact E; fold unit_ in M; congruence.
  - intros (P & E & ->); apply means_meaning; [exact P|]; rewrite meaning_key by exact E; reflexivity.
Qed.
Lemma key_units_steps b : pattern b -> expo b <> 2047 -> - top < key b < top /\ key_units b = steps (key b).
Proof.
  intros P E; pose proof (fin_key b P E) as K; fold top in K; split; [exact K|]; destruct (pat_fields _ K) as (P2 & K2 & E2).
  apply key_units_eq; auto.
Qed.
Lemma means_steps k : - top < k < top -> means (pat k) (Fin (IZR (steps k) * unit_)).
Proof. intros H; destruct (pat_fields k H) as (P & _ & E); apply means_fin_key; auto. Qed.
Lemma key_even b : pattern b -> Z.even (key b) = Z.even b.
Proof.
  intros P; assert (M : Z.even (magnitude b) = Z.even b).
  { unfold pattern in P; unfold magnitude; rewrite (Z.div_mod b (2 ^ 63)) at 2 by lia; rewrite Z.even_add, Z.even_mul; change (Z.even (2 ^ 63)) with true; cbn [orb]; destruct (Z.even (b mod 2 ^ 63)); reflexivity. }
  unfold key; destruct (sign b); [rewrite Z.even_opp|]; exact M.
Qed.
Lemma key_units_eq_means a b r : means a (Fin r) -> means b (Fin r) -> key_units a = key_units b.
Proof.
  intros Ma Mb; apply means_fin_key in Ma, Mb; destruct Ma as (_ & _ & Ha), Mb as (_ & _ & Hb); apply scale_eq; fold unit_; congruence.
Qed.

(** ** size *)
Lemma steps_bound k : - top < k < top -> Z.abs (steps k) <= 2 ^ 2098 - 2 ^ 2045.
Proof.
  intros H; assert (T : forall j, 0 <= j < top -> 0 <= steps j <= 2 ^ 2098 - 2 ^ 2045).
  { intros j Hj; assert (J : steps j <= steps (top - 1)).
    { destruct (Z.eq_dec j (top - 1)) as [->|N]; [lia|]; assert (steps j < steps (top - 1)) by (apply steps_up; lia); lia. }
    replace (steps (top - 1)) with (2 ^ 2098 - 2 ^ 2045) in J by (vm_compute; reflexivity).
    assert (0 <= steps j) by (unfold steps, key_units; assert (S : sign (pat j) = false) by (unfold sign, pat; unfold top in Hj; change (2 ^ 63) with 9223372036854775808; change (2047 * 2 ^ 52) with 9218868437227405312 in Hj; destruct (j <? 0) eqn:E; lia); rewrite S; apply units_range).
    lia. }
  destruct (Z_lt_le_dec k 0) as [N|N]; [|specialize (T k ltac:(lia)); lia].
  assert (S : steps k = - steps (- k)).
  { unfold steps, key_units, pat, top in *; change (2047 * 2 ^ 52) with 9218868437227405312 in H.
    destruct (k <? 0) eqn:E1; [|lia]; destruct (- k <? 0) eqn:E2; [lia|].
    assert (S1 : sign (2 ^ 63 - k) = true) by (unfold sign; change (2 ^ 63) with 9223372036854775808; lia).
    assert (S2 : sign (- k) = false) by (unfold sign; change (2 ^ 63) with 9223372036854775808; lia).
    rewrite S1, S2; f_equal; apply units_eq; unfold pattern, magnitude; change (2 ^ 64) with 18446744073709551616; change (2 ^ 63) with 9223372036854775808; lia. }
  specialize (T (- k) ltac:(lia)); lia.
Qed.
Lemma too_large_units : too_large = (IZR (2 ^ 2098 - 2 ^ 2044) * unit_)%R.
Proof.
  unfold too_large, unit_; rewrite minus_IZR, !IZR_pow2 by lia; rewrite Rmult_minus_distr_r, <- !pw_add; reflexivity.
Qed.
Lemma means_not_large b r : means b (Fin r) -> (Rabs r < too_large)%R.
Proof.
  intros M; apply means_fin_key in M; destruct M as (P & E & ->); destruct (key_units_steps b P E) as [K ->].
  pose proof unit_pos; rewrite too_large_units, Rabs_mult, (Rabs_right unit_) by lra; apply Rmult_lt_compat_r; [assumption|].
  rewrite <- abs_IZR; apply IZR_lt; eapply Z.le_lt_trans; [apply steps_bound, K|].
  assert (2 ^ 2044 < 2 ^ 2045) by (apply Z.pow_lt_mono_r; lia); lia.
Qed.

(** ** rounding *)
Lemma rounds_fin x b : (Rabs x < too_large)%R -> rounds x b ->
  exists r, means b (Fin r) /\ forall b' r', means b' (Fin r') -> (Rabs (x - r) <= Rabs (x - r'))%R /\ (Rabs (x - r) = Rabs (x - r') -> r <> r' -> Z.even b = true).
Proof. intros H; unfold rounds; destruct (Rlt_dec (Rabs x) too_large); [auto|contradiction]. Qed.
Lemma abs_self x : Rabs (x - x) = 0%R.
Proof. replace (x - x)%R with 0%R by ring; apply Rabs_R0. Qed.
(** what is a double stays *)
Lemma rounds_exact x b c : means b (Fin x) -> rounds x c <-> means c (Fin x).
Proof.
  intros M; pose proof (means_not_large b x M) as L; split.
  - intros H; apply rounds_fin in H; [|exact L]; destruct H as (r & Mr & H); destruct (H b x M) as [H1 _].
    rewrite abs_self in H1; assert (r = x) as <-; [|exact Mr].
    destruct (Req_dec (x - r) 0) as [Z0|Z0]; [lra|]; apply Rabs_pos_lt in Z0; lra.
  - intros Mc; unfold rounds; destruct (Rlt_dec (Rabs x) too_large); [|contradiction]; exists x; split; [exact Mc|].
    intros b' r' M'; rewrite abs_self; split; [apply Rabs_pos|].
    intros E N; exfalso; symmetry in E; assert (x - r' <> 0)%R by lra; apply Rabs_no_R0 in H; contradiction.
Qed.
(** doubles on one side of the number stay on that side *)
Lemma rounds_above x b c y v : means c (Fin y) -> (y <= x)%R -> rounds x b -> means b (Fin v) -> (y <= v)%R.
Proof.
  intros Mc L H Mb; unfold rounds in H; destruct (Rlt_dec (Rabs x) too_large) as [S|S].
  - destruct H as (r & Mr & H); destruct (H c y Mc) as [H1 _].
    assert (r = v) as -> by (pose proof (means_pattern _ _ Mr) as P; apply means_meaning in Mr; [|exact P]; apply means_meaning in Mb; [|exact P]; congruence).
    apply Rnot_lt_le; intros C; revert H1; rewrite !Rabs_right by lra; lra.
  - exfalso; pose proof (means_pattern _ _ Mb) as P; apply means_meaning in H; [|exact P]; apply means_meaning in Mb; [|exact P]; congruence.
Qed.
Lemma rounds_below x b c y v : means c (Fin y) -> (x <= y)%R -> rounds x b -> means b (Fin v) -> (v <= y)%R.
Proof.
  intros Mc L H Mb; unfold rounds in H; destruct (Rlt_dec (Rabs x) too_large) as [S|S].
  - destruct H as (r & Mr & H); destruct (H c y Mc) as [H1 _].
    assert (r = v) as -> by (pose proof (means_pattern _ _ Mr) as P; apply means_meaning in Mr; [|exact P]; apply means_meaning in Mb; [|exact P]; congruence).
    apply Rnot_lt_le; intros C; revert H1; rewrite !Rabs_left1 by lra; lra.
  - exfalso; pose proof (means_pattern _ _ Mb) as P; apply means_meaning in H; [|exact P]; apply means_meaning in Mb; [|exact P]; congruence.
Qed.
(** between two neighbours the nearer one is the result; [n / d] in units *)
Lemma rounds_near (n d k : Z) : 0 < d -> - top < k -> k + 1 < top -> d * steps k <= n <= d * steps (k + 1) ->
  (n - d * steps k < d * steps (k + 1) - n -> rounds (IZR n / IZR d * unit_) (pat k))
  /\ (d * steps (k + 1) - n < n - d * steps k -> rounds (IZR n / IZR d * unit_) (pat (k + 1))).
Proof.
  intros D K1 K2 [L1 L2]; set (x := (IZR n / IZR d * unit_)%R); pose proof unit_pos as U.
  assert (D' : (0 < IZR d)%R) by (apply IZR_lt, D).
  assert (X : forall z, (IZR z * unit_ = IZR (d * z) / IZR d * unit_)%R) by (intros; rewrite mult_IZR; field; lra).
  assert (LE : forall a b, a <= b -> (IZR a / IZR d * unit_ <= IZR b / IZR d * unit_)%R).
  { intros a b H; apply Rmult_le_compat_r; [lra|]; apply Rmult_le_compat_r; [left; apply Rinv_0_lt_compat, D'|apply IZR_le, H]. }
  assert (LT : forall a b, a < b -> (IZR a / IZR d * unit_ < IZR b / IZR d * unit_)%R).
  { intros a b H; apply Rmult_lt_compat_r; [lra|]; apply Rmult_lt_compat_r; [apply Rinv_0_lt_compat, D'|apply IZR_lt, H]. }
  assert (A1 : (IZR (steps k) * unit_ <= x)%R) by (rewrite X; apply LE, L1).
  assert (A2 : (x <= IZR (steps (k + 1)) * unit_)%R) by (rewrite X; apply LE, L2).
  assert (S : (Rabs x < too_large)%R).
  { pose proof (means_not_large _ _ (means_steps k ltac:(lia))) as B1; pose proof (means_not_large _ _ (means_steps (k + 1) ltac:(lia))) as B2.
    apply Rabs_def2 in B1, B2; apply Rabs_def1; lra. }
  assert (side : forall b' r', means b' (Fin r') -> (r' <= IZR (steps k) * unit_ \/ IZR (steps (k + 1)) * unit_ <= r')%R).
  { intros b' r' M; apply means_fin_key in M; destruct M as (P & E & ->); destruct (key_units_steps b' P E) as [K ->].
    destruct (Z_le_gt_dec (key b') k) as [G|G]; [left|right]; apply Rmult_le_compat_r; try lra; apply IZR_le.
    - destruct (Z.eq_dec (key b') k) as [->|N]; [lia|]; apply Z.lt_le_incl, steps_up; lia.
    - destruct (Z.eq_dec (key b') (k + 1)) as [->|N]; [lia|]; apply Z.lt_le_incl, steps_up; lia. }
  assert (mid : forall a b, (IZR (a - b) / IZR d * unit_ = IZR a / IZR d * unit_ - IZR b / IZR d * unit_)%R) by (intros; rewrite minus_IZR; field; lra).
  split; intros H; unfold rounds; (destruct (Rlt_dec (Rabs x) too_large); [|contradiction]).
  - exists (IZR (steps k) * unit_)%R; split; [apply means_steps; lia|]; intros b' r' M.
    apply LT in H; rewrite !mid, <- !X in H; fold x in H.
    rewrite (Rabs_right (x - _)) by lra; destruct (side b' r' M) as [G|G].
    + rewrite Rabs_right by lra; split; [lra|intros; exfalso; lra].
    + rewrite Rabs_left1 by lra; split; [lra|intros; exfalso; lra].
  - exists (IZR (steps (k + 1)) * unit_)%R; split; [apply means_steps; lia|]; intros b' r' M.
    apply LT in H; rewrite !mid, <- !X in H; fold x in H.
    rewrite (Rabs_left1 (x - _)) by lra; destruct (side b' r' M) as [G|G].
    + rewrite Rabs_right by lra; split; [lra|intros; exfalso; lra].
    + rewrite Rabs_left1 by lra; split; [lra|intros; exfalso; lra].
Qed.
(** the result is one number *)
Lemma rounds_unique x b c : rounds x b -> rounds x c -> meaning b = meaning c.
Proof.
  unfold rounds; destruct (Rlt_dec (Rabs x) too_large) as [S|S].
  2:{ intros Hb Hc; apply means_meaning in Hb; [|eapply means_pattern, Hb]; apply means_meaning in Hc; [|eapply means_pattern, Hc]; congruence. }
  intros (r & Mb & Hb) (q & Mc & Hc).
  assert (R : r = q).
  { destruct (Hb c q Mc) as [B1 B2], (Hc b r Mb) as [C1 C2]; destruct (Req_dec r q) as [|N]; [assumption|exfalso].
    specialize (B2 ltac:(lra) N); specialize (C2 ltac:(lra) ltac:(auto)).
    pose proof Mb as Mb'; pose proof Mc as Mc'; apply means_fin_key in Mb', Mc'; destruct Mb' as (Pb & Eb & Rb), Mc' as (Pc & Ec & Rc).
    destruct (key_units_steps b Pb Eb) as [Kb Ub], (key_units_steps c Pc Ec) as [Kc Uc].
    rewrite <- key_even in B2, C2 by assumption.
    assert (K : key b <> key c) by (intros K; apply N; rewrite Rb, Rc, Ub, Uc, K; reflexivity).
    pose proof unit_pos as U.
    assert (M : exists m, - top < m < top /\ (key b < m < key c \/ key c < m < key b)).
    { destruct (Z_lt_le_dec (key b) (key c)); [exists (key b + 1)|exists (key c + 1)].
      - assert (key b + 1 <> key c) by (intros Q; rewrite <- Q, Z.even_add, B2 in C2; discriminate); lia.
      - assert (key c + 1 <> key b) by (intros Q; rewrite <- Q, Z.even_add, C2 in B2; discriminate); lia. }
    destruct M as (m & Km & M); pose proof (means_steps m Km) as Mm; destruct (Hb _ _ Mm) as [Q1 _], (Hc _ _ Mm) as [Q2 _].
    set (y := (IZR (steps m) * unit_)%R) in *.
    assert (Y : (r < y < q \/ q < y < r)%R).
    { unfold y; rewrite Rb, Rc, Ub, Uc; destruct M as [[M1 M2]|[M1 M2]]; [left|right]; split; apply Rmult_lt_compat_r; auto; apply IZR_lt; apply steps_up; lia. }
    revert B1 C1 Q1 Q2; unfold Rabs; repeat destruct (Rcase_abs _); lra. }
  subst q; apply means_meaning in Mb; [|eapply means_pattern, Mb]; apply means_meaning in Mc; [|eapply means_pattern, Mc]; congruence.
Qed.
(** and there is one *)
Lemma crossing (P : Z -> Prop) (dec : forall k, {P k} + {~ P k}) lo hi : lo < hi -> P lo -> ~ P hi -> exists k, lo <= k < hi /\ P k /\ ~ P (k + 1).
Proof.
  intros L; remember (Z.to_nat (hi - lo)) as n eqn:N; revert lo L N; induction n as [|n IH]; intros lo L N H1 H2; [lia|].
  destruct (dec (lo + 1)) as [D|D]; [|exists lo; repeat split; auto; lia].
  destruct (Z.eq_dec (lo + 1) hi) as [E|E]; [rewrite E in D; contradiction|].
  destruct (IH (lo + 1) ltac:(lia) ltac:(lia) D H2) as (k & K & Q); exists k; split; [lia|exact Q].
Qed.
Lemma steps_mono j k : - top < j -> k < top -> j <= k -> (IZR (steps j) * unit_ <= IZR (steps k) * unit_)%R.
Proof.
  intros H1 H2 H3; apply Rmult_le_compat_r; [left; apply unit_pos|]; apply IZR_le; destruct (Z.eq_dec j k) as [->|N]; [lia|].
  apply Z.lt_le_incl, steps_up; lia.
Qed.
Lemma rounds_total x : exists b, rounds x b.
Proof.
  unfold rounds; destruct (Rlt_dec (Rabs x) too_large) as [S|S].
  2:{ destruct (Rlt_dec x 0); [exists (2 ^ 63 + 2047 * 2 ^ 52)|exists (2047 * 2 ^ 52)]; (apply means_meaning; [unfold pattern; lia|vm_compute; reflexivity]). }
  set (V := fun k => (IZR (steps k) * unit_)%R).
  assert (T : 1 < top) by (unfold top; lia).
  assert (every : forall b r, means b (Fin r) -> exists k, - top < k < top /\ r = V k).
  { intros b r M; apply means_fin_key in M; destruct M as (P & E & ->); destruct (key_units_steps b P E) as [K ->]; eauto. }
  destruct (Rle_dec (V (- (top - 1))) x) as [A|A].
  2:{ exists (pat (- (top - 1))), (V (- (top - 1))); split; [apply means_steps; lia|]; intros b' r' M; destruct (every _ _ M) as (k & K & ->).
      pose proof (steps_mono (- (top - 1)) k ltac:(lia) ltac:(lia) ltac:(lia)) as Q; fold (V k) in Q; fold (V (- (top - 1))) in Q.
      rewrite !Rabs_left1 by lra; split; [lra|intros; exfalso; lra]. }
  destruct (Rle_dec (V (top - 1)) x) as [B|B].
  { exists (pat (top - 1)), (V (top - 1)); split; [apply means_steps; lia|]; intros b' r' M; destruct (every _ _ M) as (k & K & ->).
    pose proof (steps_mono k (top - 1) ltac:(lia) ltac:(lia) ltac:(lia)) as Q; fold (V k) in Q; fold (V (top - 1)) in Q.
    rewrite !Rabs_right by lra; split; [lra|intros; exfalso; lra]. }
  destruct (crossing (fun k => (V k <= x)%R) (fun k => Rle_dec (V k) x) (- (top - 1)) (top - 1) ltac:(lia) A B) as (k & K & K1 & K2); apply Rnot_le_lt in K2.
  assert (side : forall j, - top < j < top -> (V j <= V k \/ V (k + 1)%Z <= V j)%R).
  { intros j J; destruct (Z_le_gt_dec j k); [left; apply (steps_mono j k)|right; apply (steps_mono (k + 1) j)]; lia. }
  assert (par : Z.even (pat k) = true \/ Z.even (pat (k + 1)) = true).
  { destruct (pat_fields k ltac:(lia)) as (P1 & Q1 & _), (pat_fields (k + 1) ltac:(lia)) as (P2 & Q2 & _); rewrite <- (key_even (pat k)), <- (key_even (pat (k + 1))), Q1, Q2, Z.even_add by assumption.
    destruct (Z.even k); auto. }
  assert (low : (x - V k < V (k + 1)%Z - x)%R \/ (x - V k = V (k + 1)%Z - x)%R /\ Z.even (pat k) = true -> exists b r, means b (Fin r) /\ forall b' r', means b' (Fin r') ->
    (Rabs (x - r) <= Rabs (x - r'))%R /\ (Rabs (x - r) = Rabs (x - r') -> r <> r' -> Z.even b = true)).
  { intros H; exists (pat k), (V k); split; [apply means_steps; lia|]; intros b' r' M; destruct (every _ _ M) as (j & J & ->).
    rewrite (Rabs_right (x - V k)) by lra; destruct (side j J) as [G|G]; [rewrite Rabs_right by lra|rewrite Rabs_left1 by lra].
    - split; [lra|intros; exfalso; lra].
    - destruct H as [H|[H E]]; (split; [lra|]); [intros; exfalso; lra|auto]. }
  assert (high : (V (k + 1)%Z - x < x - V k)%R \/ (x - V k = V (k + 1)%Z - x)%R /\ Z.even (pat (k + 1)) = true -> exists b r, means b (Fin r) /\ forall b' r', means b' (Fin r') ->
    (Rabs (x - r) <= Rabs (x - r'))%R /\ (Rabs (x - r) = Rabs (x - r') -> r <> r' -> Z.even b = true)).
  { intros H; exists (pat (k + 1)), (V (k + 1)%Z); split; [apply means_steps; lia|]; intros b' r' M; destruct (every _ _ M) as (j & J & ->).
    rewrite (Rabs_left1 (x - V (k + 1)%Z)) by lra; destruct (side j J) as [G|G]; [rewrite Rabs_right by lra|rewrite Rabs_left1 by lra].
    - destruct H as [H|[H E]]; (split; [lra|]); [intros; exfalso; lra|auto].
    - split; [lra|intros; exfalso; lra]. }
  destruct (Rtotal_order (x - V k) (V (k + 1)%Z - x)) as [H|[H|H]]; [apply low; auto| |apply high; auto].
  destruct par; [apply low|apply high]; auto.
Qed.
Lemma rounded_total v : exists b, rounded v b.
Proof.
  destruct v as [|s|x]; [exists (2047 * 2 ^ 52 + 1)| |apply rounds_total].
  - apply means_meaning; [unfold pattern; lia|vm_compute; reflexivity].
  - exists (if s then 2 ^ 63 + 2047 * 2 ^ 52 else 2047 * 2 ^ 52); apply means_meaning; [destruct s; unfold pattern; lia|destruct s; vm_compute; reflexivity].
Qed.
Lemma rounded_pattern v b : rounded v b -> pattern b.
Proof.
  destruct v as [|s|x]; cbn [rounded]; [apply means_pattern|apply means_pattern|]; unfold rounds; destruct (Rlt_dec (Rabs x) too_large); [|apply means_pattern].
  intros (v & M & _); eapply means_pattern, M.
Qed.
(** the whole numbers up to 2^53 are doubles *)
Lemma int_double z : Z.abs z <= 2 ^ 53 -> exists b, means b (Fin (IZR z)).
Proof.
  intros H; destruct (Z_lt_le_dec (Z.abs z) (2 ^ 53)) as [L|L]; [exists (bits_of_int z); apply bits_of_int_means, L|].
  assert (T : forall s, means (pat (if s : bool then - (1076 * 2 ^ 52) else 1076 * 2 ^ 52)) (Fin (IZR (if s then - 2 ^ 53 else 2 ^ 53)))).
  { intros s; replace (IZR (if s then - 2 ^ 53 else 2 ^ 53)) with (IZR (steps (if s then - (1076 * 2 ^ 52) else 1076 * 2 ^ 52)) * unit_)%R; [apply means_steps; destruct s; unfold top; lia|].
    replace (steps (if s then - (1076 * 2 ^ 52) else 1076 * 2 ^ 52)) with ((if s then - 2 ^ 53 else 2 ^ 53) * 2 ^ 1074) by (destruct s; vm_compute; reflexivity).
    rewrite mult_IZR, (IZR_pow2 1074), Rmult_assoc by lia; unfold unit_; rewrite <- pw_add; change (1074 + -1074) with 0; rewrite powerRZ_O; ring. }
  destruct (Z_lt_le_dec z 0); [eexists; specialize (T true); cbn [andb] in T; replace z with (- 2 ^ 53) by lia; exact T|eexists; specialize (T false); replace z with (2 ^ 53) by lia; exact T].
Qed.
Lemma means_inj b v w : means b v -> means b w -> v = w.
Proof. intros Hv Hw; pose proof (means_pattern _ _ Hv) as P; apply means_meaning in Hv; [|exact P]; apply means_meaning in Hw; [|exact P]; congruence. Qed.
(** ** reals and sums of whole numbers *)
Definition whole (b : bits) (z : Z) : Prop := means b (Fin (IZR z)).
Lemma dadd_whole a b c y z : whole a y -> whole b z -> Z.abs (y + z) <= 2 ^ 53 -> dadd a b c <-> whole c (y + z).
Proof.
  intros Ha Hb L; destruct (int_double (y + z) L) as [e He]; unfold whole in *; split.
  - intros (v & w & Mv & Mw & R); assert (v = Fin (IZR y)) as -> by (eapply means_inj; eauto); assert (w = Fin (IZR z)) as -> by (eapply means_inj; eauto).
    cbn [plus_number rounded] in R; rewrite <- plus_IZR in R; apply (rounds_exact _ e) in R; auto.
  - intros Hc; exists (Fin (IZR y)), (Fin (IZR z)); repeat split; auto; cbn [plus_number rounded]; rewrite <- plus_IZR; apply (rounds_exact _ e); auto.
Qed.
Lemma dsub_whole a b c y z : whole a y -> whole b z -> Z.abs (y - z) <= 2 ^ 53 -> dsub a b c <-> whole c (y - z).
Proof.
  intros Ha Hb L; destruct (int_double (y - z) L) as [e He]; unfold whole in *.
  assert (X : (IZR y + - IZR z = IZR (y - z))%R) by (rewrite minus_IZR; ring); split.
  - intros (v & w & Mv & Mw & R); assert (v = Fin (IZR y)) as -> by (eapply means_inj; eauto); assert (w = Fin (IZR z)) as -> by (eapply means_inj; eauto).
    cbn [plus_number opp_number rounded] in R; rewrite X in R; apply (rounds_exact _ e) in R; auto.
  - intros Hc; exists (Fin (IZR y)), (Fin (IZR z)); repeat split; auto; cbn [plus_number opp_number rounded]; rewrite X; apply (rounds_exact _ e); auto.
Qed.
Definition total (zs : list Z) : Z := fold_right Z.add 0 zs.
Lemma total_app l r : total (l ++ r) = total l + total r.
Proof. induction l as [|a l IH]; cbn [app total fold_right]; [reflexivity|]; fold (total (l ++ r)); fold (total l); rewrite IH; ring. Qed.
Lemma total_perm l r : Permutation l r -> total l = total r.
Proof.
  induction 1 as [|a l r _ IH|a b l|l m r _ IH1 _ IH2]; cbn [total fold_right]; try congruence.
  - fold (total l); fold (total r); congruence.
  - fold (total l); ring.
Qed.
Lemma total_abs zs : Z.abs (total zs) <= total (map Z.abs zs).
Proof. induction zs as [|a l IH]; cbn [map total fold_right]; [reflexivity|]; fold (total l) (total (map Z.abs l)); lia. Qed.
Lemma whole_perm l r zs : Permutation l r -> Forall2 whole l zs -> exists zs', Permutation zs zs' /\ Forall2 whole r zs'.
Proof.
  intros P; revert zs; induction P as [|a l r _ IH|a b l|l m r _ IH1 _ IH2]; intros zs H.
  - inversion H; subst; exists []; split; [constructor|constructor].
  - inversion H as [|? z ? zs1 Ha Hl]; subst; destruct (IH _ Hl) as (zs' & P' & H'); exists (z :: zs'); split; constructor; auto.
  - inversion H as [|? z1 ? zs1 Ha Hl]; subst; inversion Hl as [|? z2 ? zs2 Hb Hl2]; subst; exists (z2 :: z1 :: zs2); split; [constructor|repeat constructor; auto].
  - destruct (IH1 _ H) as (z1 & P1 & H1); destruct (IH2 _ H1) as (z2 & P2 & H2); exists z2; split; [eapply perm_trans; eauto|exact H2].
Qed.
Lemma sums_whole l r zs : sums l r -> Forall2 whole l zs -> total (map Z.abs zs) <= 2 ^ 53 -> whole r (total zs).
Proof.
  intros S; revert zs; induction S as [a|l l1 l2 a b c P S1 IH1 S2 IH2 D]; intros zs H L.
  - inversion H as [|? z ? zs1 Ha Hl]; subst; inversion Hl; subst; cbn [total fold_right]; rewrite Z.add_0_r; exact Ha.
  - destruct (whole_perm _ _ _ P H) as (zs' & P' & H'); apply Forall2_app_inv_l in H'; destruct H' as (z1 & z2 & H1 & H2 & ->).
    rewrite (total_perm _ _ P'), total_app; rewrite (total_perm _ _ (Permutation_map Z.abs P')), map_app, total_app in L.
    pose proof (total_abs z1) as A1; pose proof (total_abs z2) as A2.
    eapply dadd_whole; [apply IH1; [exact H1|lia]|apply IH2; [exact H2|lia]|lia|exact D].
Qed.
Lemma sums_exist l zs : l <> [] -> Forall2 whole l zs -> total (map Z.abs zs) <= 2 ^ 53 -> exists r, sums l r.
Proof.
  revert zs; induction l as [|a l IH]; intros zs N H L; [contradiction|].
  destruct l as [|b l]; [exists a; constructor|].
  inversion H as [|? z ? zs1 Ha Hl]; subst; cbn [map total fold_right] in L; fold (total (map Z.abs zs1)) in L.
  destruct (IH zs1 ltac:(discriminate) Hl ltac:(lia)) as [s Hs]; pose proof (sums_whole _ _ _ Hs Hl ltac:(lia)) as W.
  pose proof (total_abs zs1) as A.
  destruct (int_double (z + total zs1) ltac:(lia)) as [c Hc]; exists c.
  eapply (sums_two _ [a] (b :: l)); [reflexivity|constructor|exact Hs|eapply dadd_whole; eauto; lia].
Qed.
(** ** computing with literals *)
Definition finite_double (b : bits) : bool := (0 <=? b) && (b <? 2 ^ 64) && negb (expo b =? 2047).
Definition nearest_is (n d k : Z) : bool :=
  (0 <? d) && (- top <? k - 1) && (k + 1 <? top) &&
  if d * steps k <=? n then (n <=? d * steps (k + 1)) && (n - d * steps k <? d * steps (k + 1) - n)
  else (d * steps (k - 1) <=? n) && (d * steps k - n <? n - d * steps (k - 1)).
Lemma nearest_rounds n d k : nearest_is n d k = true -> rounds (IZR n / IZR d * unit_) (pat k).
Proof.
  unfold nearest_is; destruct (d * steps k <=? n) eqn:E; intros H; repeat rewrite andb_true_iff in H.
  - destruct H as (((H1 & H2) & H3) & H4 & H5); apply Z.ltb_lt in H1, H2, H3, H5; apply Z.leb_le in H4, E; apply rounds_near; auto; lia.
  - destruct H as (((H1 & H2) & H3) & H4 & H5); apply Z.ltb_lt in H1, H2, H3, H5; apply Z.leb_le in H4; apply Z.leb_gt in E.
    pose proof (rounds_near n d (k - 1)) as Q; replace (k - 1 + 1) with k in Q by ring; apply Q; auto; lia.
Qed.
Lemma finite_double_means b : finite_double b = true -> means b (Fin (IZR (key_units b) * unit_)).
Proof.
  unfold finite_double; intros H; repeat rewrite andb_true_iff in H; destruct H as ((H1 & H2) & H3); apply means_fin_key.
  apply negb_true_iff, Z.eqb_neq in H3; split; [unfold pattern; lia|auto].
Qed.
Lemma dadd_literal a b k : finite_double a && finite_double b && nearest_is (key_units a + key_units b) 1 k = true -> dadd a b (pat k).
Proof.
  intros H; repeat rewrite andb_true_iff in H; destruct H as ((Ha & Hb) & H); apply finite_double_means in Ha, Hb; apply nearest_rounds in H.
  eexists; eexists; split; [exact Ha|]; split; [exact Hb|]; cbn [plus_number rounded]; rewrite plus_IZR in H.
  replace (IZR (key_units a) * unit_ + IZR (key_units b) * unit_)%R with ((IZR (key_units a) + IZR (key_units b)) / 1 * unit_)%R by field; exact H.
Qed.
Lemma dsub_literal a b k : finite_double a && finite_double b && nearest_is (key_units a - key_units b) 1 k = true -> dsub a b (pat k).
Proof.
  intros H; repeat rewrite andb_true_iff in H; destruct H as ((Ha & Hb) & H); apply finite_double_means in Ha, Hb; apply nearest_rounds in H.
  eexists; eexists; split; [exact Ha|]; split; [exact Hb|]; cbn [plus_number opp_number rounded]; rewrite minus_IZR in H.
  replace (IZR (key_units a) * unit_ + - (IZR (key_units b) * unit_))%R with ((IZR (key_units a) - IZR (key_units b)) / 1 * unit_)%R by field; exact H.
Qed.
Lemma ddiv_literal a b k : finite_double a && finite_double b && nearest_is (key_units a * 2 ^ 1074) (key_units b) k = true -> ddiv a b (pat k).
Proof.
  intros H; repeat rewrite andb_true_iff in H; destruct H as ((Ha & Hb) & H); apply finite_double_means in Ha, Hb.
  assert (B : 0 < key_units b) by (unfold nearest_is in H; repeat rewrite andb_true_iff in H; lia).
  apply nearest_rounds in H; apply IZR_lt in B; pose proof unit_pos as U.
  eapply ddiv_fin; [exact Ha|exact Hb|apply Rgt_not_eq, Rmult_lt_0_compat; assumption|].
  replace (IZR (key_units a) * unit_ / (IZR (key_units b) * unit_))%R with (IZR (key_units a * 2 ^ 1074) / IZR (key_units b) * unit_)%R; [exact H|].
  assert (O : (IZR (2 ^ 1074) * unit_ = 1)%R) by (rewrite IZR_pow2 by lia; unfold unit_; rewrite <- pw_add; change (1074 + -1074) with 0; apply powerRZ_O).
  rewrite mult_IZR; transitivity (IZR (key_units a) * (IZR (2 ^ 1074) * unit_) / IZR (key_units b))%R; [field; lra|]; rewrite O; field; lra.
Qed.
