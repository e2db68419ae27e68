(** FitLoopProofs.v - the steps of the fit of a Gaussian. *)
From Coq Require Import Reals Lra Lia ZifyBool ZifyNat.
From Verif Require Import Base ImageModel ImageFacts IndexModel ImageProofs GeomModel GeomProofs PixelModel PixelProofs HistModel HistProofs
  NestedModel OField LinModel SolveProofs BigSum RSum ReduceModel ReduceProofs FourierModel FourierProofs GaussModel GaussProofs FrechetProofs
  TextModel TextProofs FitModel FitProofs.
Open Scope nat_scope.
Ltac Zify.zify_post_hook ::= Z.div_mod_to_equations.

(** ** positive definite systems *)
Section Quad.
  Context {I : Type} (l : list I) (J : I -> nat -> R) (lam : R) (n : nat).
  Definition damped (k j : nat) : R := (rsum (fun i => J i k * J i j) l + (if k =? j then lam else 0))%R.
  Lemma damped_row k v : k < n -> rsum (fun j => damped k j * v j)%R (seq 0 n) =
    (rsum (fun i => J i k * vdot n (J i) v) l + lam * v k)%R.
  Proof.
    intros Hk; unfold damped.
    rewrite (rsum_ext _ (fun j => rsum (fun i => J i k * (J i j * v j)) l + (if k =? j then lam * v j else 0))%R).
    - rewrite rsum_add, rsum_swap; f_equal.
      + apply rsum_ext; intros i _; rewrite rsum_scale; auto.
      + rewrite (rsum_single _ n k) by (auto; intros j _ Nj; rewrite (proj2 (Nat.eqb_neq k j)) by auto; auto).
        rewrite Nat.eqb_refl; auto.
    - intros j _; rewrite Rmult_plus_distr_r; f_equal; [|destruct (k =? j); ring].
      rewrite Rmult_comm, <- rsum_scale; apply rsum_ext; intros; ring.
  Qed.
  Lemma damped_quad v : rsum (fun k => v k * rsum (fun j => damped k j * v j) (seq 0 n))%R (seq 0 n) =
    (rsum (fun i => vdot n (J i) v * vdot n (J i) v) l + lam * rsum (fun k => v k * v k) (seq 0 n))%R.
  Proof.
    rewrite (rsum_ext _ (fun k => rsum (fun i => vdot n (J i) v * (J i k * v k)) l + lam * (v k * v k))%R).
    - rewrite rsum_add, rsum_scale, rsum_swap; f_equal; apply rsum_ext; intros i _; rewrite rsum_scale; auto.
    - intros k Hk; apply in_seq in Hk; rewrite damped_row by lia; rewrite Rmult_plus_distr_l; f_equal; [|ring].
      rewrite <- rsum_scale; apply rsum_ext; intros; ring.
  Qed.
  Lemma damped_ge v : (lam * rsum (fun k => v k * v k) (seq 0 n) <= rsum (fun k => v k * rsum (fun j => damped k j * v j) (seq 0 n)) (seq 0 n))%R.
  Proof.
    rewrite damped_quad; pose proof (rsum_nonneg (fun i => vdot n (J i) v * vdot n (J i) v)%R l (fun i _ => Rle_0_sqr _)); lra.
  Qed.
  (** a vector with a component of one is not mapped to almost nothing *)
  Lemma damped_singular thr v j0 : (0 < lam)%R -> j0 < n -> v j0 = 1%R ->
    (forall k, k < n -> (Rabs (rsum (fun j => damped k j * v j) (seq 0 n)) < thr)%R) -> (lam <= INR (n + 1) * thr)%R.
  Proof.
    intros Pl Hj V1 Hs; set (Q := rsum (fun k => v k * v k)%R (seq 0 n)).
    assert (Pt : (0 < thr)%R) by (eapply Rle_lt_trans; [apply Rabs_pos | apply (Hs j0 Hj)]).
    assert (Q1 : (1 <= Q)%R).
    { replace 1%R with (rsum (fun k => if k =? j0 then 1 else 0)%R (seq 0 n)).
      - apply rsum_le; intros k _; destruct (Nat.eqb_spec k j0) as [->|]; [rewrite V1; lra | apply Rle_0_sqr].
      - rewrite (rsum_single _ n j0); auto; [rewrite Nat.eqb_refl; auto|]; intros k _ Nk; rewrite (proj2 (Nat.eqb_neq k j0)); auto. }
    assert (U : (rsum (fun k => v k * rsum (fun j => damped k j * v j) (seq 0 n)) (seq 0 n) <= thr * ((INR n + Q) / 2))%R).
    { eapply Rle_trans; [apply (rsum_le _ (fun k => thr * ((1 + v k * v k) / 2))%R)|].
      - intros k Hk; apply in_seq in Hk; specialize (Hs k ltac:(lia)).
        set (m := rsum (fun j => damped k j * v j)%R (seq 0 n)) in *.
        assert (V : (Rabs (v k) <= (1 + v k * v k) / 2)%R).
        { pose proof (Rle_0_sqr (Rabs (v k) - 1)) as S1; unfold Rsqr in S1.
          replace (v k * v k)%R with (Rabs (v k) * Rabs (v k))%R; [lra|]; rewrite <- Rabs_mult; apply Rabs_pos_eq, Rle_0_sqr. }
        eapply Rle_trans; [apply Rle_abs|]; rewrite Rabs_mult, Rmult_comm; apply Rmult_le_compat; auto using Rabs_pos; lra.
      - rewrite rsum_scale; apply Rmult_le_compat_l; [lra|].
        rewrite (rsum_ext _ (fun k => / 2 * (1 + v k * v k))%R) by (intros; field); rewrite rsum_scale, rsum_add, rsum_const, seq_length.
        fold Q; lra. }
    pose proof (damped_ge v) as G; fold Q in G.
    assert (L : (lam * Q <= (thr * INR (n + 1)) * Q)%R).
    { eapply Rle_trans; [exact G|]; eapply Rle_trans; [exact U|]; rewrite Rmult_assoc; apply Rmult_le_compat_l; [lra|].
      rewrite plus_INR; cbn [INR]; pose proof (pos_INR n); nra. }
    apply Rmult_le_reg_r in L; lra.
  Qed.
End Quad.

Definition valid (p : gparams) : Prop := (/ 10 ^ 6 <= g_sx p)%R /\ (/ 10 ^ 6 <= g_sy p)%R /\ (- (999 / 1000) <= g_rho p <= 999 / 1000)%R.
Lemma pow6 : (0 < / 10 ^ 6)%R. Proof. apply Rinv_0_lt_compat, pow_lt; lra. Qed.
Lemma pow12 : (0 < / 10 ^ 12)%R. Proof. apply Rinv_0_lt_compat, pow_lt; lra. Qed.
Lemma valid_regular p : valid p -> regular p.
Proof. intros (A & B & C); pose proof pow6; repeat split; [lra | lra | nra]. Qed.
Lemma try_valid p d : valid (lm_try p d).
Proof.
  unfold valid, lm_try; cbn [g_sx g_sy g_rho]; repeat split; try apply Rmax_l.
  apply Rmax_lub; [lra | apply Rmin_l].
Qed.

Section Loop.
  Variables (im : image R) (w h : nat) (f : nat -> nat -> R).
  Hypothesis HR : Repr im w h f.
  Hypothesis Pw : 0 < w.
  Hypothesis Ph : 0 < h.
  Notation N := (w * h).
  Notation err := (err w h f).
  Notation gra := (gra w h f).
  Notation hes := (hes w h).
  Notation jc := (jc w).
  Notation accf := (accf w h f).

  Definition sc (p : gparams) (i : nat) : R :=
    let s := sqrt (Rabs (hes p i i)) in if rltb s (/ 10 ^ 12)%R then 1%R else s.
  Lemma sc_pos p i : (0 < sc p i)%R.
  Proof. unfold sc; cbv zeta; destruct (rltb _ _) eqn:E; [lra|]; apply rltb_false in E; pose proof pow12; lra. Qed.
  Definition js (p : gparams) (i k : nat) : R := (jc p i k / sc p k)%R.
  Definition gs (p : gparams) (k : nat) : R := (gra p k / sc p k)%R.

  Lemma hes_scaled p lam k j : (hes p k j / (sc p k * sc p j) + (if k =? j then lam else 0))%R = damped (seq 0 N) (js p) lam k j.
  Proof.
    unfold damped; f_equal; unfold FitProofs.hes, Rdiv; rewrite Rmult_comm, <- rsum_scale; apply rsum_ext; intros i _; unfold js.
    pose proof (sc_pos p k); pose proof (sc_pos p j); field; lra.
  Qed.

  (** the step: a solution of the damped system, or nothing when the damping is tiny *)
  Lemma delta_spec p lam : (0 < lam)%R ->
    exists d, lm_delta (accf p) lam = Ok d /\ length d = 6 /\
      let u k := (sc p k * nth k d 0)%R in
      ((forall k, k < 6 -> rsum (fun j => damped (seq 0 N) (js p) lam k j * u j)%R (seq 0 6) = gs p k) \/
       ((forall k, k < 6 -> nth k d 0%R = 0%R) /\ (lam <= 7 * / 10 ^ 12)%R)).
  Proof.
    intros Pl; unfold lm_delta.
    assert (SC : lm_scale (a_H (accf p)) = map (sc p) (seq 0 6)).
    { unfold lm_scale; apply map_ext_in; intros i Hi; apply in_seq in Hi; unfold FitProofs.accf; cbn [a_H].
      rewrite nth_map_seq by lia; rewrite nth_map_seq by lia; reflexivity. }
    rewrite SC; clear SC.
    set (A := map _ (seq 0 6)); set (b := map _ (seq 0 6)).
    assert (HS : SRepr Rfield (A, b) 6 (fun k j => damped (seq 0 N) (js p) lam k j) (gs p)).
    { subst A b; repeat split; cbn [fst snd].
      - intros k Hk; eexists; split; [rewrite nth_error_map, (nth_error_nth' _ 0) by (rewrite seq_length; auto); rewrite seq_nth by auto; reflexivity|].
        split; [rewrite map_length, seq_length; auto|]; intros j Hj.
        rewrite nth_error_map, (nth_error_nth' _ 0) by (rewrite seq_length; auto); rewrite seq_nth by auto; cbn [option_map Nat.add]; f_equal.
        unfold FitProofs.accf; cbn [a_H]; rewrite !nth_map_seq by lia; exact (f_equal Some (hes_scaled p lam k j)).
      - intros j Hj.
        rewrite nth_error_map, (nth_error_nth' _ 0) by (rewrite seq_length; auto); rewrite seq_nth by auto; cbn [option_map Nat.add]; f_equal.
        unfold FitProofs.accf; cbn [a_g]; rewrite !nth_map_seq by lia; reflexivity. }
    destruct (solve_spec Rfield (/ 10 ^ 12)%R 6 A b _ _ HS) as (x & Ex & Lx & Hx).
    { apply rltb_spec, pow12. }
    rewrite Ex; cbn [bind]; eexists; split; [reflexivity|]; split; [rewrite map_length, seq_length; auto|]; cbv zeta.
    assert (U : forall k, k < 6 -> (sc p k * nth k (map (fun i => nth i x 0 / nth i (map (sc p) (seq 0 6)) 0) (seq 0 6)) 0 = nth k x 0)%R).
    { intros k Hk; rewrite !nth_map_seq by lia; pose proof (sc_pos p k); field; lra. }
    destruct Hx as [Hx|(Zx & v & (j0 & Hj & V1) & Hv)].
    - left; intros k Hk; rewrite <- (Hx k Hk); unfold dot; apply rsum_ext; intros j Hj; apply in_seq in Hj; rewrite U by lia; reflexivity.
    - right; split.
      + intros k Hk; rewrite nth_map_seq by lia; change (x = repeat 0%R 6) in Zx; rewrite Zx.
        destruct k as [|[|[|[|[|[|k]]]]]]; [..|lia]; cbn [nth repeat]; unfold Rdiv; ring.
      + apply Rle_trans with (INR (6 + 1) * / 10 ^ 12)%R; [|right; f_equal; cbn [Nat.add INR]; ring].
        apply (damped_singular (seq 0 N) (js p) lam 6 (/ 10 ^ 12)%R v j0 Pl Hj V1).
        intros k Hk; specialize (Hv k Hk); rewrite fabs_R in Hv; apply rltb_spec in Hv; exact Hv.
  Qed.

  (** the step taken from [p] *)
  Definition stp (p : gparams) (lam : R) : list R := match lm_delta (accf p) lam with Ok d => d | _ => [] end.
  Lemma stp_ok p lam : (0 < lam)%R -> lm_delta (accf p) lam = Ok (stp p lam) /\ length (stp p lam) = 6.
  Proof. intros Pl; destruct (delta_spec p lam Pl) as (d & E & L & _); unfold stp; rewrite E; auto. Qed.
  Definition up (p : gparams) (lam : R) (k : nat) : R := (sc p k * nth k (stp p lam) 0)%R.
  Lemma stp_spec p lam : (0 < lam)%R ->
    (forall k, k < 6 -> rsum (fun j => damped (seq 0 N) (js p) lam k j * up p lam j)%R (seq 0 6) = gs p k) \/
    ((forall k, k < 6 -> nth k (stp p lam) 0%R = 0%R) /\ (lam <= 7 * / 10 ^ 12)%R).
  Proof. intros Pl; destruct (delta_spec p lam Pl) as (d & E & L & H); unfold up, stp; rewrite E; auto. Qed.

  Lemma step_dot p lam : vdot 6 (gra p) (fun k => nth k (stp p lam) 0%R) = vdot 6 (gs p) (up p lam).
  Proof. apply rsum_ext; intros k _; unfold gs, up; pose proof (sc_pos p k); field; lra. Qed.
  (** every step goes downhill *)
  Lemma step_descent p lam : (0 < lam)%R ->
    (lam * rsum (fun k => up p lam k * up p lam k) (seq 0 6) <= vdot 6 (gra p) (fun k => nth k (stp p lam) 0))%R.
  Proof.
    intros Pl; rewrite step_dot; destruct (stp_spec p lam Pl) as [H|(Z & _)].
    - eapply Rle_trans; [apply (damped_ge (seq 0 N) (js p))|]; right; apply rsum_ext; intros k Hk; apply in_seq in Hk.
      rewrite H by lia; ring.
    - right; unfold vdot, up; rewrite !rsum_zero; [ring|..]; intros k Hk; apply in_seq in Hk; rewrite Z by lia; ring.
  Qed.
  Lemma squares_zero v n : rsum (fun k => v k * v k)%R (seq 0 n) = 0%R -> forall k, k < n -> v k = 0%R.
  Proof.
    induction n as [|n IH]; intros E k Hk; [lia|]; rewrite rsum_snoc in E.
    assert (A := rsum_nonneg (fun k => v k * v k)%R (seq 0 n) (fun k _ => Rle_0_sqr _)); assert (B := Rle_0_sqr (v n)); unfold Rsqr in B.
    destruct (Nat.eq_dec k n) as [->|]; [apply Rsqr_0_uniq; unfold Rsqr; lra | apply IH; [lra | lia]].
  Qed.
  (** where the gradient vanishes there is no step *)
  Lemma step_flat p lam : (0 < lam)%R -> (forall k, k < 6 -> gra p k = 0%R) -> forall k, k < 6 -> nth k (stp p lam) 0%R = 0%R.
  Proof.
    intros Pl Z; pose proof (step_descent p lam Pl) as D.
    assert (V : vdot 6 (gra p) (fun k => nth k (stp p lam) 0%R) = 0%R).
    { unfold vdot; apply rsum_zero; intros k Hk; apply in_seq in Hk; rewrite Z by lia; ring. }
    rewrite V in D; set (Q := rsum (fun k => up p lam k * up p lam k)%R (seq 0 6)) in D.
    assert (Q0 : (0 <= Q)%R) by (apply rsum_nonneg; intros; apply Rle_0_sqr).
    assert (Q1 : Q = 0%R) by nra.
    intros k Hk; pose proof (squares_zero _ _ Q1 k Hk) as U; unfold up in U; pose proof (sc_pos p k).
    apply Rmult_integral in U; destruct U as [U|U]; [lra | exact U].
  Qed.

  (** ** the iterations as a function *)
  Fixpoint lmf (tol : R) (n : nat) (p : gparams) (lam : R) : gparams :=
    match n with
    | O => p
    | S n' => let d := stp p lam in
        if rltb (squared_size d) tol then p
        else if rltb (err (par (lm_try p d))) (err (par p)) then lmf tol n' (lm_try p d) (lam / 10)%R else lmf tol n' p (lam * 10)%R
    end.
  Lemma loop_iff tol n : forall p lam r, valid p -> (0 < lam)%R -> (lm_loop im tol n p lam r <-> r = Ok (lmf tol n p lam)).
  Proof.
    induction n as [|n IH]; intros p lam r V Pl; cbn [lm_loop lmf]; [reflexivity|].
    pose proof (valid_regular _ V) as RP; destruct (stp_ok p lam Pl) as (E & _).
    assert (VT := try_valid p (stp p lam)); assert (RT := valid_regular _ VT).
    split.
    - intros (acc & d & HA & Ed & H); apply (acc_iff im w h f HR Pw) in HA; auto; subst acc; rewrite E in Ed; injection Ed as <-.
      destruct (rltb (squared_size _) tol); [auto|].
      destruct H as (e & He & H); apply (sse_iff im w h f HR Pw) in He; auto; subst e; cbn [FitProofs.accf a_sse] in H.
      destruct (rltb (err _) _); apply IH in H; auto; lra.
    - intros ->; exists (accf p), (stp p lam); split; [apply (acc_iff im w h f HR Pw); auto|]; split; auto.
      destruct (rltb (squared_size _) tol); [auto|].
      exists (err (par (lm_try p (stp p lam)))); split; [apply (sse_iff im w h f HR Pw); auto|]; cbn [FitProofs.accf a_sse].
      destruct (rltb (err _) _); apply IH; auto; lra.
  Qed.
  Lemma lmf_valid tol n : forall p lam, valid p -> valid (lmf tol n p lam).
  Proof.
    induction n as [|n IH]; intros p lam V; cbn [lmf]; auto; cbv zeta.
    destruct (rltb _ tol); auto; destruct (rltb _ _); apply IH; auto using try_valid.
  Qed.
  Lemma lmf_mono tol n : forall p lam, (err (par (lmf tol (S n) p lam)) <= err (par (lmf tol n p lam)))%R.
  Proof.
    induction n as [|n IH]; intros p lam.
    - cbn [lmf]; cbv zeta; destruct (rltb _ tol); [lra|]; destruct (rltb (err _) _) eqn:E; [apply rltb_spec in E; lra | lra].
    - change (lmf tol (S (S n)) p lam) with (let d := stp p lam in if rltb (squared_size d) tol then p
        else if rltb (err (par (lm_try p d))) (err (par p)) then lmf tol (S n) (lm_try p d) (lam / 10)%R else lmf tol (S n) p (lam * 10)%R).
      change (lmf tol (S n) p lam) with (let d := stp p lam in if rltb (squared_size d) tol then p
        else if rltb (err (par (lm_try p d))) (err (par p)) then lmf tol n (lm_try p d) (lam / 10)%R else lmf tol n p (lam * 10)%R).
      cbv zeta; destruct (rltb _ tol); [lra|]; destruct (rltb (err _) _); apply IH.
  Qed.
  (** what is reached after n iterations is continued from there, or the loop has ended *)
  Lemma lmf_add tol n : forall p lam, (0 < lam)%R ->
    (exists lam', (0 < lam')%R /\ forall k, lmf tol (n + k) p lam = lmf tol k (lmf tol n p lam) lam') \/
    ((0 < tol)%R /\ forall k, lmf tol (n + k) p lam = lmf tol n p lam).
  Proof.
    induction n as [|n IH]; intros p lam Pl; [left; exists lam; split; auto|].
    cbn [Nat.add lmf]; cbv zeta; destruct (rltb _ tol) eqn:E.
    - right; split; auto; apply rltb_spec in E; eapply Rle_lt_trans; [|exact E].
      unfold squared_size; generalize (stp p lam); intros d; assert (G : forall d s, (0 <= s)%R -> (0 <= fold_left (fun s x => s + x * x) d s)%R);
        [|apply G; lra]; clear; induction d as [|a d IH]; intros s Hs; cbn [fold_left]; auto; apply IH; pose proof (Rle_0_sqr a); unfold Rsqr in *; lra.
    - destruct (rltb (err _) _); apply IH; lra.
  Qed.
  Lemma try_zero p d : valid p -> (forall k, k < 6 -> nth k d 0%R = 0%R) -> lm_try p d = p.
  Proof.
    intros (A & B & C & D) Z; unfold lm_try; rewrite !Z by lia; rewrite !Rplus_0_r; pose proof pow6.
    rewrite (Rabs_pos_eq (g_sx p)), (Rabs_pos_eq (g_sy p)) by lra; rewrite (Rmax_right _ (g_sx p)), (Rmax_right _ (g_sy p)) by auto.
    rewrite Rmin_right, Rmax_right by auto; destruct p; auto.
  Qed.
  Lemma lmf_flat tol k : forall p lam, valid p -> (0 < lam)%R -> (forall i, i < 6 -> gra p i = 0%R) -> lmf tol k p lam = p.
  Proof.
    induction k as [|k IH]; intros p lam V Pl Z; cbn [lmf]; auto; cbv zeta.
    destruct (rltb _ tol); auto; rewrite (try_zero p (stp p lam)) by (auto; intros; apply step_flat; auto).
    destruct (rltb (err _) _) eqn:E; [apply rltb_spec in E; lra | apply IH; auto; lra].
  Qed.

  (** ** away from critical points some step is accepted *)
  Definition inside (p : gparams) : Prop := (/ 10 ^ 6 < g_sx p)%R /\ (/ 10 ^ 6 < g_sy p)%R /\ (- (999 / 1000) < g_rho p < 999 / 1000)%R.
  Lemma inside_valid p : inside p -> valid p.
  Proof. unfold inside, valid; lra. Qed.
  Lemma try_small p : inside p -> exists m, (0 < m)%R /\
    forall d, (vnorm 6 (fun k => nth k d 0) < m)%R -> forall i, i < 6 -> par (lm_try p d) i = (par p i + nth i d 0)%R.
  Proof.
    intros (A & B & C & D).
    exists (Rmin (g_sx p - / 10 ^ 6) (Rmin (g_sy p - / 10 ^ 6) (Rmin (999 / 1000 - g_rho p) (g_rho p + 999 / 1000))))%R; split.
    { repeat apply Rmin_glb_lt; lra. }
    intros d Sd i Hi.
    assert (M1 := Rlt_le_trans _ _ _ Sd (Rmin_l _ _)); assert (T1 := Rlt_le_trans _ _ _ Sd (Rmin_r _ _)); clear Sd.
    assert (M2 := Rlt_le_trans _ _ _ T1 (Rmin_l _ _)); assert (T2 := Rlt_le_trans _ _ _ T1 (Rmin_r _ _)); clear T1.
    assert (M3 := Rlt_le_trans _ _ _ T2 (Rmin_l _ _)); assert (M4 := Rlt_le_trans _ _ _ T2 (Rmin_r _ _)); clear T2.
    assert (K3 := vnorm_ge 6 (fun k => nth k d 0%R) 3 ltac:(lia)); assert (K4 := vnorm_ge 6 (fun k => nth k d 0%R) 4 ltac:(lia)).
    assert (K5 := vnorm_ge 6 (fun k => nth k d 0%R) 5 ltac:(lia)); cbv beta in K3, K4, K5.
    set (n := vnorm 6 _) in *; clearbody n.
    assert (L3 := Rle_abs (- nth 3 d 0)%R); assert (L4 := Rle_abs (- nth 4 d 0)%R); assert (L5 := Rle_abs (- nth 5 d 0)%R).
    assert (L6 := Rle_abs (nth 5 d 0)%R); rewrite Rabs_Ropp in L3, L4, L5; pose proof pow6.
    unfold par, lm_try; cbn [g_amp g_x0 g_y0 g_sx g_sy g_rho].
    destruct i as [|[|[|[|[|[|i]]]]]]; [..|lia]; cbn [nth]; auto.
    - rewrite Rabs_pos_eq, Rmax_right; lra.
    - rewrite Rabs_pos_eq, Rmax_right; lra.
    - rewrite Rmin_right, Rmax_right; lra.
  Qed.
  Lemma cauchy6 v : (vnorm 6 v * vnorm 6 v <= 6 * rsum (fun k => v k * v k) (seq 0 6))%R.
  Proof.
    rewrite (rsum_ext _ (fun k => Rabs (v k) * Rabs (v k))%R) by (intros k _; rewrite <- Rabs_mult; symmetry; apply Rabs_pos_eq, Rle_0_sqr).
    unfold vnorm; cbn [seq]; rewrite !rsum_cons, !rsum_nil.
    generalize (Rabs (v 0)) (Rabs (v 1)) (Rabs (v 2)) (Rabs (v 3)) (Rabs (v 4)) (Rabs (v 5)); intros a b c d e g.
    apply Rminus_le; match goal with |- (?t <= 0)%R => replace t with
      (- (Rsqr (a - b) + Rsqr (a - c) + Rsqr (a - d) + Rsqr (a - e) + Rsqr (a - g) + Rsqr (b - c) + Rsqr (b - d) + Rsqr (b - e) + Rsqr (b - g)
        + Rsqr (c - d) + Rsqr (c - e) + Rsqr (c - g) + Rsqr (d - e) + Rsqr (d - g) + Rsqr (e - g)))%R by (unfold Rsqr; ring) end.
    repeat match goal with |- context [Rsqr ?t] => let H := fresh in assert (H := Rle_0_sqr t); revert H; generalize (Rsqr t); intros ? H end; lra.
  Qed.

  Lemma accepted p : inside p -> (exists k, k < 6 /\ gra p k <> 0%R) ->
    exists L, (0 < L)%R /\ forall lam, (L <= lam)%R -> (err (par (lm_try p (stp p lam))) < err (par p))%R.
  Proof.
    intros IN (k0 & Hk0 & NZ); assert (RP := valid_regular _ (inside_valid _ IN)).
    set (g1 := vnorm 6 (gs p)).
    assert (Pg : (0 < g1)%R).
    { eapply Rlt_le_trans; [|apply (vnorm_ge 6 (gs p) k0 Hk0)]; apply Rabs_pos_lt; unfold gs; intros E; apply NZ.
      pose proof (sc_pos p k0); apply (f_equal (fun t => t * sc p k0)%R) in E; unfold Rdiv in E.
      rewrite Rmult_assoc, Rinv_l, Rmult_0_l in E by lra; lra. }
    set (B := rsum (fun k => rsum (fun j => Rabs (damped (seq 0 N) (js p) 0 k j)) (seq 0 6)) (seq 0 6)).
    assert (PB : (0 <= B)%R) by (apply rsum_nonneg; intros; apply rsum_nonneg; intros; apply Rabs_pos).
    set (S1 := rsum (fun k => / sc p k)%R (seq 0 6)).
    assert (PS : (0 < S1)%R).
    { unfold S1; cbn [seq]; rewrite !rsum_cons, rsum_nil.
      pose proof (fun k => Rinv_0_lt_compat _ (sc_pos p k)) as P; pose proof (P 0); pose proof (P 1); pose proof (P 2); pose proof (P 3); pose proof (P 4); pose proof (P 5); lra. }
    set (c := (g1 / (12 * S1))%R).
    assert (Pc : (0 < c)%R) by (apply Rdiv_lt_0_compat; lra).
    destruct (err_frechet w h f p RP c Pc) as (del & Pdel & Hdel).
    destruct (try_small p IN) as (m & Pm & Hm).
    set (q := Rmin del m); assert (Pq : (0 < q)%R) by (apply Rmin_glb_lt; auto).
    set (L := (B + 1 + 7 * S1 * g1 / q)%R).
    assert (P7 : (0 < 7 * S1 * g1 / q)%R) by (apply Rdiv_lt_0_compat; auto; repeat apply Rmult_lt_0_compat; lra).
    exists L; split; [unfold L; lra|]; intros lam HL.
    assert (Pl : (0 < lam)%R) by (unfold L in HL; lra).
    destruct (stp_spec p lam Pl) as [HS|(_ & X)].
    2: { exfalso; assert ((/ 10 ^ 12 <= / 10)%R); [|unfold L in HL; lra].
      apply Rinv_le_contravar; [lra|]; rewrite <- (pow_1 10) at 1; apply Rle_pow; [lra | lia]. }
    set (u := up p lam) in *; set (nu := vnorm 6 u).
    assert (Nu : (0 <= nu)%R) by apply vnorm_nonneg.
    (* the step is not too small *)
    assert (A1 : (g1 <= (B + lam) * nu)%R).
    { unfold g1, vnorm; eapply Rle_trans; [apply (rsum_le _ (fun k => nu * rsum (fun j => Rabs (damped (seq 0 N) (js p) 0 k j)) (seq 0 6) + lam * Rabs (u k))%R)|].
      - intros k Hk; apply in_seq in Hk; rewrite <- HS by lia.
        rewrite (rsum_ext _ (fun j => damped (seq 0 N) (js p) 0 k j * u j + (if j =? k then lam * u j else 0))%R).
        2: { intros j _; unfold damped; rewrite (Nat.eqb_sym j k); destruct (k =? j); ring. }
        rewrite rsum_add, (rsum_single (fun j => if j =? k then (lam * u j)%R else 0%R) 6 k)
          by (try lia; intros j _ Nj; rewrite (proj2 (Nat.eqb_neq j k)); auto).
        rewrite Nat.eqb_refl; eapply Rle_trans; [apply Rabs_triang|]; apply Rplus_le_compat.
        + eapply Rle_trans; [apply rsum_abs_le|]; rewrite <- rsum_scale; apply rsum_le; intros j Hj; apply in_seq in Hj.
          rewrite Rabs_mult, Rmult_comm; apply Rmult_le_compat_r; [apply Rabs_pos | apply (vnorm_ge 6 u j); lia].
        + rewrite Rabs_mult, (Rabs_pos_eq lam) by lra; lra.
      - rewrite rsum_add, !rsum_scale; fold B; fold (vnorm 6 u); fold nu; lra. }
    set (G := vdot 6 (gra p) (fun k => nth k (stp p lam) 0%R)).
    assert (A2 : (lam * (nu * nu) <= 6 * G)%R).
    { pose proof (step_descent p lam Pl) as D; fold u G in D; pose proof (cauchy6 u) as C6; fold nu in C6.
      eapply Rle_trans; [apply Rmult_le_compat_l; [lra | exact C6]|]; lra. }
    assert (A3 : (G <= g1 * nu)%R).
    { unfold G; rewrite step_dot; eapply Rle_trans; [apply Rle_abs | apply vdot_le]. }
    set (nd := vnorm 6 (fun k => nth k (stp p lam) 0%R)).
    assert (A4 : (nd <= S1 * nu)%R).
    { unfold nd, vnorm, S1; eapply Rle_trans; [apply (rsum_le _ (fun k => nu * / sc p k)%R)|].
      - intros k Hk; apply in_seq in Hk; pose proof (sc_pos p k) as PK.
        replace (nth k (stp p lam) 0%R) with (u k * / sc p k)%R by (unfold u, up; field; lra).
        rewrite Rabs_mult, (Rabs_pos_eq (/ sc p k)) by (left; apply Rinv_0_lt_compat; auto).
        apply Rmult_le_compat_r; [left; apply Rinv_0_lt_compat; auto | apply (vnorm_ge 6 u k); lia].
      - rewrite rsum_scale; lra. }
    assert (Pn : (0 < nu)%R) by (destruct Nu as [Nu|Nu]; auto; rewrite <- Nu in A1; lra).
    assert (A5 : (lam * nu <= 6 * g1)%R) by (apply Rmult_le_reg_r with nu; auto; lra).
    assert (A6 : (g1 * nu <= 12 * G)%R).
    { apply (Rmult_le_compat_r nu) in A1; [|lra].
      assert (BL : (B * (nu * nu) <= lam * (nu * nu))%R) by (apply Rmult_le_compat_r; [apply Rle_0_sqr | unfold L in HL; lra]); lra. }
    assert (A7 : (c * nd <= G)%R).
    { eapply Rle_trans; [apply Rmult_le_compat_l; [lra | exact A4]|]; unfold c.
      replace (g1 / (12 * S1) * (S1 * nu))%R with (g1 * nu / 12)%R by (field; lra); lra. }
    assert (A8 : (nd < q)%R).
    { apply Rle_lt_trans with (S1 * nu)%R; auto.
      assert (QL : (7 * S1 * g1 <= lam * q)%R).
      { assert (X : (7 * S1 * g1 / q <= lam)%R) by (unfold L in HL; lra); apply (Rmult_le_compat_r q) in X; [|lra].
        unfold Rdiv in X; rewrite Rmult_assoc, Rinv_l, Rmult_1_r in X by lra; auto. }
      apply Rmult_lt_reg_l with lam; auto; eapply Rlt_le_trans; [|exact QL].
      apply (Rmult_le_compat_l S1) in A5; [|lra].
      assert ((0 < S1 * g1)%R) by (apply Rmult_lt_0_compat; auto); lra. }
    assert (GP : (0 < G)%R) by (assert ((0 < g1 * nu)%R) by (apply Rmult_lt_0_compat; auto); lra).
    specialize (Hm (stp p lam) (Rlt_le_trans _ _ _ A8 (Rmin_r _ _))).
    specialize (Hdel (fun k => nth k (stp p lam) 0%R) (Rlt_le_trans _ _ _ A8 (Rmin_l _ _))); fold nd in Hdel.
    rewrite (err_ext w h f (par (lm_try p (stp p lam))) (fun i => par p i + nth i (stp p lam) 0)%R Hm).
    replace (vdot 6 (fun k => -2 * gra p k)%R (fun k => nth k (stp p lam) 0%R)) with (-2 * G)%R in Hdel
      by (unfold G, vdot; rewrite <- rsum_scale; apply rsum_ext; intros; ring).
    match type of Hdel with (Rabs ?t <= _)%R => pose proof (Rle_abs t) end; lra.
  Qed.

  Lemma lmf_progress tol p : (tol <= 0)%R -> inside p -> (exists k, k < 6 /\ gra p k <> 0%R) -> forall lam, (0 < lam)%R ->
    exists k, (err (par (lmf tol k p lam)) < err (par p))%R.
  Proof.
    intros Ht IN NZ; destruct (accepted p IN NZ) as (L & PL & HL).
    assert (NB : forall d, rltb (squared_size d) tol = false).
    { intros d; apply rltb_false; eapply Rle_trans; [exact Ht|]; unfold squared_size.
      assert (G : forall d s, (0 <= s)%R -> (0 <= fold_left (fun s x => s + x * x) d s)%R); [|apply G; lra]; clear.
      induction d as [|a d IH]; intros s Hs; cbn [fold_left]; auto; apply IH; pose proof (Rle_0_sqr a); unfold Rsqr in *; lra. }
    assert (G : forall j lam, (0 < lam)%R -> (L <= lam * 10 ^ j)%R -> exists k, (err (par (lmf tol k p lam)) < err (par p))%R).
    { induction j as [|j IH]; intros lam Pl Hj.
      - exists 1; cbn [lmf]; cbv zeta; rewrite NB; cbn [pow] in Hj; specialize (HL lam ltac:(lra)).
        rewrite (proj2 (rltb_spec _ _) HL); auto.
      - destruct (IH (lam * 10)%R) as (k & Hk); [lra | cbn [pow] in Hj; lra |].
        destruct (rltb (err (par (lm_try p (stp p lam)))) (err (par p))) eqn:E.
        + exists 1; cbn [lmf]; cbv zeta; rewrite NB, E; apply rltb_spec; auto.
        + exists (S k); cbn [lmf]; cbv zeta; rewrite NB, E; auto. }
    intros lam Pl; destruct (Pow_x_infinity 10 ltac:(rewrite Rabs_pos_eq; lra) (L / lam)%R) as (j & Hj).
    apply (G j lam Pl); specialize (Hj j (le_n j)); rewrite Rabs_pos_eq in Hj by (apply pow_le; lra).
    apply Rge_le, (Rmult_le_compat_l lam) in Hj; [|lra]; replace (lam * (L / lam))%R with L in Hj by (field; lra); auto.
  Qed.
End Loop.

(** ** the initial guess *)
Lemma rsum_filter {I} (P : I -> bool) (g : I -> R) l : rsum g (filter P l) = rsum (fun i => if P i then g i else 0%R) l.
Proof. induction l as [|i l IH]; [reflexivity|]; cbn [filter]; rewrite rsum_cons, <- IH; destruct (P i); [rewrite rsum_cons | rewrite Rplus_0_l]; auto. Qed.

Lemma rsum_pixels w h (F : nat -> nat -> R) :
  rsum (fun i => F (i mod w) (i / w)) (seq 0 (w * h)) = rsum (fun y => rsum (fun x => F x y) (seq 0 w)) (seq 0 h).
Proof.
  rewrite (Nat.mul_comm w h).
  transitivity (rsum (fun q => F (snd q) (fst q)) (grid h w)); [rewrite grid_seq, (bsum_map 0%R Rplus) | rewrite rsum_grid]; reflexivity.
Qed.

Section Guess.
  Variables (im : image R) (w h : nat) (f : nat -> nat -> R).
  Hypothesis HR : Repr im w h f.
  Hypothesis Pw : 0 < w.
  Hypothesis Ph : 0 < h.
  Notation N := (w * h).
  Notation zof := (zof w f).

  Lemma brightest_ok : exists m, brightest im = Ok m /\ m < N /\ (forall i, i < N -> (zof i <= zof m)%R) /\ (forall i, i < m -> (zof i < zof m)%R).
  Proof.
    assert (PN : 0 < N) by (apply Nat.mul_pos_pos; auto).
    unfold brightest; rewrite (count_N im w h f HR Pw Ph); replace (N =? 0) with false by lia.
    assert (G : forall n s m, s + n = N -> m < s -> (forall i, i < s -> (zof i <= zof m)%R) -> (forall i, i < m -> (zof i < zof m)%R) ->
      exists m', for_list (seq s n) (fun i m => let* a := vget (pix im) m in let* b := vget (pix im) i in Ok (if rltb a b then i else m)) m = Ok m' /\
        m' < N /\ (forall i, i < N -> (zof i <= zof m')%R) /\ (forall i, i < m' -> (zof i < zof m')%R)).
    { induction n as [|n IH]; intros s m Hs Hm H1 H2; cbn [seq for_list].
      - exists m; replace N with s by lia; auto.
      - rewrite (vget_i im w h f HR Pw Ph m), (vget_i im w h f HR Pw Ph s) by lia; cbn [bind].
        destruct (rltb _ _) eqn:E; [apply rltb_spec in E | apply rltb_false in E]; apply IH; try lia.
        + intros i Hi; destruct (Nat.eq_dec i s) as [->|]; [lra|]; specialize (H1 i ltac:(lia)); lra.
        + intros i Hi; specialize (H1 i ltac:(lia)); lra.
        + intros i Hi; destruct (Nat.eq_dec i s) as [->|]; [lra|]; apply H1; lia.
        + auto. }
    apply (G (N - 1) 1 0); [lia | lia | intros i Hi; replace i with 0 by lia; lra | intros i Hi; lia].
  Qed.

  (** a moment is a sum over the pixels brighter than a tenth *)
  Definition msum (A : R) (W : nat -> R) : R := rsum (fun i => if rltb (A * (1 / 10)) (zof i) then (W i * zof i)%R else 0%R) (seq 0 N).
  Lemma moment_iff A W m : moment im A W m <-> m = msum A W.
  Proof.
    unfold moment, bright, msum; rewrite (count_N im w h f HR Pw Ph).
    assert (E : rsuml (0%R :: map (fun i => (W i * nth i (pix im) 0)%R) (filter (fun i => rltb (A * (1 / 10)) (nth i (pix im) 0%R)) (seq 0 N))) =
      rsum (fun i => if rltb (A * (1 / 10)) (zof i) then (W i * zof i)%R else 0%R) (seq 0 N)).
    { change (rsuml (?a :: ?l)) with (a + rsuml l)%R; rewrite Rplus_0_l, FitProofs.rsuml_rsum, rsum_filter; apply rsum_ext; intros i Hi; apply in_seq in Hi.
      rewrite (nth_i im w h f HR Pw Ph) by lia; auto. }
    split; [intros H; rewrite (reduces_r _ _ H); auto|]; intros ->.
    destruct (reduces_exists Rplus (0%R :: map (fun i => (W i * nth i (pix im) 0)%R) (filter (fun i => rltb (A * (1 / 10)) (nth i (pix im) 0%R)) (seq 0 N)))
      ltac:(discriminate)) as (r & Hr).
    rewrite <- E, <- (reduces_r _ _ Hr); auto.
  Qed.

  Definition guess (m : nat) : gparams :=
    let A := zof m in
    let x0 := INR (m mod w) in let y0 := INR (m / w) in
    let dx i := (INR (i mod w) - x0)%R in let dy i := (INR (i / w) - y0)%R in
    let s := msum A (fun _ => 1%R) in
    let sx := Rmax (/ 10 ^ 6) (if rltb 0 s then sqrt (msum A (fun i => dx i * dx i)%R / s) else 10)%R in
    let sy := Rmax (/ 10 ^ 6) (if rltb 0 s then sqrt (msum A (fun i => dy i * dy i)%R / s) else 10)%R in
    let rho := (if rltb 0 s then (msum A (fun i => dx i * dy i)%R / s) / (sx * sy) else 0)%R in
    mkGP A x0 y0 sx sy (Rmax (- (99 / 100)) (Rmin (99 / 100) rho)).
  Lemma guess_iff : exists m, m < N /\ (forall i, i < N -> (zof i <= zof m)%R) /\ (forall i, i < m -> (zof i < zof m)%R) /\
    forall r, first_guess im r <-> r = Ok (guess m).
  Proof.
    destruct brightest_ok as (m & E & Hm & H1 & H2); exists m; split; auto; split; auto; split; auto; intros r.
    unfold first_guess; rewrite E, (width_w im w h f HR); cbv zeta; rewrite (nth_i im w h f HR Pw Ph) by auto; split.
    - intros (s & a & b & c & Es & Ea & Eb & Ec & ->); apply moment_iff in Es, Ea, Eb, Ec; subst; reflexivity.
    - intros ->; do 4 eexists; do 4 (split; [apply moment_iff; reflexivity|]); reflexivity.
  Qed.
  Lemma guess_valid m : valid (guess m).
  Proof.
    unfold valid, guess; cbn [g_sx g_sy g_rho]; repeat split; try apply Rmax_l.
    - apply Rle_trans with (- (99 / 100))%R; [lra | apply Rmax_l].
    - apply Rmax_lub; [lra|]; apply Rle_trans with (99 / 100)%R; [apply Rmin_l | lra].
  Qed.
  Lemma estimate_iff n tol : exists m, m < N /\ (forall i, i < N -> (zof i <= zof m)%R) /\ (forall i, i < m -> (zof i < zof m)%R) /\
    forall r, estimate im n tol r <-> r = Ok (lmf w h f tol n (guess m) (1 / 100)%R).
  Proof.
    destruct guess_iff as (m & Hm & H1 & H2 & H3); exists m; split; auto; split; auto; split; auto; intros r.
    unfold estimate, get_dimensionality; rewrite (proj1 HR); cbn [length Nat.eqb negb].
    split.
    - intros (g & Hg & H); apply H3 in Hg; subst g; apply (loop_iff im w h f HR Pw) in H; auto using guess_valid; lra.
    - intros ->; exists (Ok (guess m)); split; [apply H3; auto|]; apply (loop_iff im w h f HR Pw); auto using guess_valid; lra.
  Qed.
End Guess.

(** ** the figures *)
Lemma figure_of_Repr s xs ys p factor : sched1_ok s -> exists o, figure_of s xs ys p factor = Ok o /\
  Repr o xs ys (fun x y => (factor / (2 * PI * g_sx p * g_sy p * sqrt (1 - g_rho p ^ 2)) *
    exp (- (1) / (2 * (g_sx p * g_sx p) * (g_sy p * g_sy p) * (1 - g_rho p ^ 2)) *
      (g_sy p * g_sy p * ((INR x - g_x0 p) * (INR x - g_x0 p)) - 2 * g_rho p * g_sx p * g_sy p * (INR x - g_x0 p) * (INR y - g_y0 p) +
       g_sx p * g_sx p * ((INR y - g_y0 p) * (INR y - g_y0 p)))))%R).
Proof.
  intros Hs; set (F := fun x y => _); unfold figure_of; cbv zeta.
  assert (G : forall l o g, Repr o xs ys g -> (forall y, In y l -> y < ys) ->
    exists o', for_list l (fun y o => for_range xs (fun x o => at_set o [x; y] (F x y)) o) o = Ok o' /\
      Repr o' xs ys (fun x y => if in_dec Nat.eq_dec y l then F x y else g x y)).
  { induction l as [|y0 l IH]; intros o g Ro Hl; cbn [for_list].
    - exists o; split; auto.
    - destruct (for_range_inv xs (fun i o => Repr o xs ys (fun x y => if (y =? y0) && (x <? i) then F x y else g x y))
        (fun x o => at_set o [x; y0] (F x y0)) o) as (o1 & E1 & Ro1).
      + eapply Repr_ext; [exact Ro|]; intros x y _ _; cbv beta; replace (x <? 0) with false by lia; rewrite andb_false_r; auto.
      + intros i s1 Hi R1; destruct (at_set_Repr s1 xs ys _ i y0 (F i y0) R1) as (o2 & E2 & Ro2); auto; [apply Hl; left; auto|].
        exists o2; split; auto; eapply Repr_ext; [exact Ro2|]; intros x y _ _; cbv beta.
        destruct (Nat.eqb_spec x i) as [->|Nx], (Nat.eqb_spec y y0) as [->|Ny]; cbn [andb]; auto.
        * replace (i <? S i) with true by lia; auto.
        * replace (x <? S i) with (x <? i) by lia; auto.
      + rewrite E1; cbn [bind]; destruct (IH o1 _ Ro1) as (o' & E' & Ro'); [intros; apply Hl; right; auto|].
        exists o'; split; auto; eapply Repr_ext; [exact Ro'|]; intros x y Hx Hy; cbv beta.
        destruct (in_dec Nat.eq_dec y l) as [I|I].
        * destruct (in_dec Nat.eq_dec y (y0 :: l)) as [|J]; auto; exfalso; apply J; right; auto.
        * replace (x <? xs) with true by lia; rewrite andb_true_r.
          destruct (Nat.eqb_spec y y0) as [->|Ny]; destruct (in_dec Nat.eq_dec _ (y0 :: l)) as [J|J]; auto.
          -- exfalso; apply J; left; auto.
          -- exfalso; destruct J as [J|J]; auto. }
  destruct (G (s ys) (image_sizes 0%R [xs; ys]) _ (Repr_sizes 0%R xs ys)) as (o & E & Ro).
  - intros y Hy; apply sched1_in in Hy; auto.
  - exists o; split; [exact E|]; eapply Repr_ext; [exact Ro|]; intros x y _ Hy; cbv beta.
    destruct (in_dec Nat.eq_dec y (s ys)) as [|J]; auto; exfalso; apply J, sched1_in; auto.
Qed.

Lemma atu_set_ReprN {A} (im : image A) ds f idx v : ReprN im ds f -> in_range ds idx ->
  exists im', atu_set im idx v = Ok im' /\ ReprN im' ds (fun i => if list_eq_dec Nat.eq_dec i idx then v else f i).
Proof.
  intros (D & L & H) HI; rewrite (atu_set_ok im ds) by auto; eexists; split; [reflexivity|].
  split; [exact D|]; split; [cbn [im_upd pix]; rewrite list_upd_length; auto|].
  intros i Hi; cbn [im_upd pix]; destruct (list_eq_dec Nat.eq_dec i idx) as [->|Ni].
  - apply list_upd_same; rewrite L; apply off_lt; auto.
  - rewrite list_upd_other; [apply H; auto|]; intros E; apply Ni; symmetry; eapply off_inj; eauto.
Qed.
Definition c0 (i : list nat) := nth 0 i 0. Definition c1 (i : list nat) := nth 1 i 0. Definition c2 (i : list nat) := nth 2 i 0.
Lemma in_range3 a b c i : in_range [a; b; c] i -> exists x y z, i = [x; y; z] /\ x < a /\ y < b /\ z < c.
Proof.
  intros H; inversion H as [|x ? i1 ? Hx H1]; subst; inversion H1 as [|y ? i2 ? Hy H2]; subst; inversion H2 as [|z ? i3 ? Hz H3]; subst; inversion H3; subst.
  exists x, y, z; auto.
Qed.
Lemma figure3d_ReprN xs ys zs cx cy cz sx sy sz : 0 < xs -> 0 < ys ->
  exists o, gaussian_figure3d xs ys zs cx cy cz sx sy sz = Ok o /\
    ReprN o [xs; ys; zs] (fun i => bell cx sx (c0 i) * bell cy sy (c1 i) * bell cz sz (c2 i))%R.
Proof.
  intros Px Py; unfold gaussian_figure3d.
  destruct (figure2d_Repr xs ys cx cy sx sy false Px Py) as (pl & E & Rp); rewrite E; cbn [bind]; cbv beta iota in Rp.
  set (F := fun x y z => (bell cx sx x * bell cy sy y * bell cz sz z)%R).
  set (ds := [xs; ys; zs]).
  assert (SET : forall (o : image R) g x y z v, ReprN o ds g -> x < xs -> y < ys -> z < zs -> exists o', atu_set o [x; y; z] v = Ok o' /\
    ReprN o' ds (fun i => if list_eq_dec Nat.eq_dec i [x; y; z] then v else g i)).
  { intros; apply atu_set_ReprN; auto; repeat constructor; auto. }
  assert (EXT : forall (o : image R) g g', ReprN o ds g -> (forall x y z, x < xs -> y < ys -> z < zs -> g [x; y; z] = g' [x; y; z]) -> ReprN o ds g').
  { intros o g g' (A & B & C) H; split; auto; split; auto; intros i Hi; rewrite C by auto; f_equal.
    apply in_range3 in Hi as (x & y & z & -> & Hx & Hy & Hz); auto. }
  destruct (for_range_inv zs (fun k o => ReprN o ds (fun i => if c2 i <? k then F (c0 i) (c1 i) (c2 i) else 0%R))
    (fun z o => let* each_plane := multiplies_scalar Rmult 0%R (normal1d (INR z - INR cz) sz) pl in
       for_range ys (fun y o => for_range xs (fun x o => let* v := atu each_plane [x; y] in atu_set o [x; y; z] v) o) o)
    (image_sizes 0%R ds)) as (o & Eo & Ro).
  - eapply EXT; [apply ReprN_sizes|]; intros; cbn [c2 nth]; replace (z <? 0) with false by lia; auto.
  - intros z o Hz Ro.
    destruct (multiplies_scalar_ReprN Rmult 0%R (normal1d (INR z - INR cz) sz) pl [xs; ys] (fun i => bell cx sx (c0 i) * bell cy sy (c1 i))%R) as (ep & Ee & Re).
    { apply Repr_ReprN in Rp; destruct Rp as (A & B & C); split; auto; split; auto; intros i Hi; apply (C i Hi). }
    { rewrite prodn2; apply Nat.mul_pos_pos; auto. }
    rewrite Ee; cbn [bind].
    assert (EP : forall x y, x < xs -> y < ys -> atu ep [x; y] = Ok (F x y z)).
    { intros x y Hx Hy; rewrite (atu_ReprN _ _ _ _ Re) by (apply in_range2; auto); cbn [c0 c1 nth]; unfold F; do 2 f_equal.
      unfold normal1d, bell; f_equal; unfold Rdiv; f_equal; ring. }
    destruct (for_range_inv ys (fun j o => ReprN o ds (fun i => if (c2 i <? z) || ((c2 i =? z) && (c1 i <? j)) then F (c0 i) (c1 i) (c2 i) else 0%R))
      (fun y o => for_range xs (fun x o => let* v := atu ep [x; y] in atu_set o [x; y; z] v) o) o) as (o1 & E1 & Ro1).
    + eapply EXT; [exact Ro|]; intros a b c _ _ _; cbn [c0 c1 c2 nth]; replace (b <? 0) with false by lia; rewrite andb_false_r, orb_false_r; auto.
    + intros y s1 Hy R1.
      destruct (for_range_inv xs (fun k o => ReprN o ds (fun i =>
          if (c2 i <? z) || ((c2 i =? z) && ((c1 i <? y) || ((c1 i =? y) && (c0 i <? k)))) then F (c0 i) (c1 i) (c2 i) else 0%R))
        (fun x o => let* v := atu ep [x; y] in atu_set o [x; y; z] v) s1) as (o2 & E2 & Ro2).
      * eapply EXT; [exact R1|]; intros a b c _ _ _; cbn [c0 c1 c2 nth]; replace (a <? 0) with false by lia; rewrite andb_false_r, orb_false_r; auto.
      * intros x s2 Hx R2; rewrite EP by auto; cbn [bind].
        destruct (SET s2 _ x y z (F x y z) R2 Hx Hy Hz) as (s3 & E3 & R3); exists s3; split; auto.
        eapply EXT; [exact R3|]; intros a b c _ _ _; cbv beta.
        destruct (list_eq_dec Nat.eq_dec [a; b; c] [x; y; z]) as [Q|Q].
        -- injection Q as -> -> ->; cbn [c0 c1 c2 nth]; rewrite !Nat.eqb_refl; replace (x <? S x) with true by lia.
           rewrite !orb_true_r; reflexivity.
        -- cbn [c0 c1 c2 nth]; replace ((c =? z) && ((b <? y) || (b =? y) && (a <? S x))) with ((c =? z) && ((b <? y) || (b =? y) && (a <? x))); auto.
           destruct (Nat.eqb_spec c z) as [->|], (Nat.eqb_spec b y) as [->|]; cbn [andb]; auto.
           assert (a <> x) by congruence; replace (a <? S x) with (a <? x) by lia; auto.
      * exists o2; split; auto; eapply EXT; [exact Ro2|]; intros a b c Ha _ _; cbn [c0 c1 c2 nth]; replace (a <? xs) with true by lia.
        rewrite andb_true_r; replace ((b <? y) || (b =? y)) with (b <? S y) by lia; auto.
    + exists o1; split; auto; eapply EXT; [exact Ro1|]; intros a b c _ Hb _; cbn [c0 c1 c2 nth]; replace (b <? ys) with true by lia.
      rewrite andb_true_r; replace ((c <? z) || (c =? z)) with (c <? S z) by lia; auto.
  - exists o; split; auto; eapply EXT; [exact Ro|]; intros a b c _ _ Hc; cbn [c0 c1 c2 nth]; replace (c <? zs) with true by lia; auto.
Qed.
