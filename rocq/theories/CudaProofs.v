(** CudaProofs.v - facts about warp_perspective_cuda. *)
From Coq Require Import QArith Qcanon Qround Lia ZifyBool ZifyNat Permutation Lqa.
From Verif Require Import Base ImageModel ImageFacts PixelModel PixelProofs OField LinModel LinProofs InterpModel InterpProofs HomModel HomProofs WarpProofs CudaModel.
Open Scope nat_scope.

Lemma i32_ok z : (- 2 ^ 31 <= z < 2 ^ 31)%Z -> i32 z = Ok z.
Proof. intros H. unfold i32. replace ((- 2 ^ 31 <=? z)%Z && (z <? 2 ^ 31)%Z) with true; auto. symmetry; apply andb_true_intro; split; [apply Z.leb_le|apply Z.ltb_lt]; lia. Qed.
Lemma s32_small z : (0 <= z < 2 ^ 31)%Z -> s32 z = z.
Proof. intros H. unfold s32, u32. rewrite Z.mod_small by lia. replace (z <? 2 ^ 31)%Z with true; auto. symmetry; apply Z.ltb_lt; lia. Qed.

Lemma mem_at (src : image Z) w h f x y : Repr src w h f -> (Z.of_nat (w * h) < 2 ^ 31)%Z -> x < w -> y < h ->
  (let* r := i32 (Z.of_nat y * Z.of_nat w)%Z in let* k := i32 (r + Z.of_nat x)%Z in mem_get (pix src) k) = Ok (f x y).
Proof.
  intros (D & L & N) B Hx Hy. assert (y * w + x < w * h) by nia.
  rewrite i32_ok by nia. cbn [bind]. rewrite i32_ok by nia. cbn [bind]. unfold mem_get.
  replace (Z.of_nat y * Z.of_nat w + Z.of_nat x <? 0)%Z with false by (symmetry; apply Z.ltb_ge; lia).
  replace (Z.to_nat (Z.of_nat y * Z.of_nat w + Z.of_nat x)) with (y * w + x) by nia. apply vget_ok, N; auto.
Qed.

(** the pixel nearest to a position, halves upwards, not beyond the last *)
Definition nearest_px (n : nat) (X : Q) : nat := Nat.min (n - 1) (Z.to_nat (Qfloor (X + (1 # 2)))).

Lemma nearest_lt n X : 0 < n -> nearest_px n X < n.
Proof. intros. unfold nearest_px. lia. Qed.

Lemma nearest_clamp n X : 0 < n -> (0 <= X)%Q -> Z.max 0 (Z.min (Z.of_nat n - 1) (round_half X)) = Z.of_nat (nearest_px n X).
Proof.
  intros Hn HX. unfold round_half, nearest_px. replace (Qltb X 0) with false by (symmetry; apply Qltb_ge; auto).
  assert (0 <= Qfloor (X + (1 # 2)))%Z by (change 0%Z with (Qfloor 0); apply Qfloor_resp_le; lra).
  lia.
Qed.

Lemma dev_near (src : image Z) w h f X Y : Repr src w h f -> (Z.of_nat (w * h) < 2 ^ 31)%Z -> 0 < w -> 0 < h -> (0 <= X)%Q -> (0 <= Y)%Q -> ~ deep w h X Y ->
  interpolator_device (pix src) (Z.of_nat w) (Z.of_nat h) X Y = Ok (f (nearest_px w X) (nearest_px h Y)).
Proof.
  intros R B Hw Hh HX HY ND. unfold interpolator_device.
  assert (IW : forall n, (inject_Z (Z.of_nat n - 2) == qn n - 2)%Q).
  { intros n. unfold Z.sub. rewrite inject_Z_plus. unfold qn. change (inject_Z (- (2))) with (- (2))%Q. lra. }
  match goal with |- (if ?c then _ else _) = _ => assert (C : c = true) end.
  { destruct (Qltb X 1) eqn:E1; auto. destruct (Qle_bool (inject_Z (Z.of_nat w - 2)) X) eqn:E2; auto. destruct (Qltb Y 1) eqn:E3; auto.
    destruct (Qle_bool (inject_Z (Z.of_nat h - 2)) Y) eqn:E4; auto.
    apply Qltb_ge in E1, E3. apply Qle_bool_false in E2, E4. rewrite IW in E2, E4. exfalso. apply ND. unfold deep. lra. }
  rewrite C. rewrite !nearest_clamp by auto. apply (mem_at src w h f); auto; apply nearest_lt; auto.
Qed.

Lemma dev_deep (src : image Z) w h f X Y : Repr src w h f -> (Z.of_nat (w * h) < 2 ^ 31)%Z -> deep w h X Y ->
  interpolator_device (pix src) (Z.of_nat w) (Z.of_nat h) X Y = bicubic_interpolate inject_Z (fin_int 0 255) 0%Z src X Y.
Proof.
  intros R B ((X0 & X1) & Y0 & Y1). unfold interpolator_device, bicubic_interpolate.
  rewrite (get_width_Repr _ _ _ _ R), (get_height_Repr _ _ _ _ R); cbn [bind].
  assert (IW : forall n, (inject_Z (Z.of_nat n - 2) == qn n - 2)%Q).
  { intros n. unfold Z.sub. rewrite inject_Z_plus. unfold qn. change (inject_Z (- (2))) with (- (2))%Q. lra. }
  replace (Qltb X 1) with false by (symmetry; apply Qltb_ge; auto). replace (Qltb Y 1) with false by (symmetry; apply Qltb_ge; auto).
  replace (Qle_bool (inject_Z (Z.of_nat w - 2)) X) with false by (symmetry; apply Qle_bool_false; rewrite IW; auto).
  replace (Qle_bool (inject_Z (Z.of_nat h - 2)) Y) with false by (symmetry; apply Qle_bool_false; rewrite IW; auto).
  replace (Qle_bool (qn w - 2) X) with false by (symmetry; apply Qle_bool_false; auto).
  replace (Qle_bool (qn h - 2) Y) with false by (symmetry; apply Qle_bool_false; auto).
  cbn [orb].
  assert (T : forall n q, (1 <= q)%Q -> (q < qn n - 2)%Q -> 1 <= to_size q /\ to_size q + 2 < n /\ Qfloor q = Z.of_nat (to_size q)).
  { intros n q L U. destruct (to_size_spec q) as [A1 A2]; [lra|].
    split; [|split].
    - assert (G : (qn 0 < qn (to_size q))%Q) by (change (qn 0) with 0%Q; lra). apply qn_lt in G. lia.
    - assert (G : (qn (to_size q + 1 + 1) < qn n)%Q) by (rewrite !qn_S; lra). apply qn_lt in G. lia.
    - unfold to_size. rewrite Z2Nat.id; auto. change 0%Z with (Qfloor 0); apply Qfloor_resp_le; lra. }
  destruct (T w X X0 X1) as (P1 & P2 & P3). destruct (T h Y Y0 Y1) as (Q1 & Q2 & Q3). rewrite P3, Q3.
  set (x1 := to_size X) in *. set (y1 := to_size Y) in *. clearbody x1 y1.
  assert (E : for_range 4 (fun j total =>
      let v := (Z.of_nat y1 - 1 + Z.of_nat j)%Z in
      let* row := for_range 4 (fun i row =>
        let u := (Z.of_nat x1 - 1 + Z.of_nat i)%Z in
        let* r := i32 (v * Z.of_nat w)%Z in let* k := i32 (r + u)%Z in let* p := mem_get (pix src) k in
        Ok (row + inject_Z p * cubic_kernel_device (X - inject_Z u))%Q) 0%Q in
      Ok (total + row * cubic_kernel_device (Y - inject_Z v))%Q) 0%Q =
    for_range 4 (fun j total =>
        let v := y1 - 1 + j in
        let* row := for_range 4 (fun i row =>
          let u := x1 - 1 + i in
          let* p := at_ src [u; v] in
          Ok (row + inject_Z p * cubic_kernel (X - qn u))%Q) 0%Q in
        Ok (total + row * cubic_kernel (Y - qn v))%Q) 0%Q).
  { unfold for_range at 1 3. apply for_list_ext. intros j tot Hj. apply in_seq in Hj. cbv zeta.
    replace (Z.of_nat y1 - 1 + Z.of_nat j)%Z with (Z.of_nat (y1 - 1 + j)) by lia.
    match goal with |- (let* row := ?a in _) = (let* row := ?b in _) => assert (Er : a = b); [|rewrite Er; reflexivity] end.
    unfold for_range. apply for_list_ext. intros i row Hi. apply in_seq in Hi.
    replace (Z.of_nat x1 - 1 + Z.of_nat i)%Z with (Z.of_nat (x1 - 1 + i)) by lia.
    pose proof (mem_at src w h f (x1 - 1 + i) (y1 - 1 + j) R B ltac:(lia) ltac:(lia)) as M.
    rewrite (at_Repr src w h f) by (auto; lia). cbn [bind].
    destruct (i32 (Z.of_nat (y1 - 1 + j) * Z.of_nat w)) as [r| |]; cbn [bind] in M |- *; try discriminate.
    destruct (i32 (r + Z.of_nat (x1 - 1 + i))) as [k| |]; cbn [bind] in M |- *; try discriminate.
    rewrite M. reflexivity. }
  cbv zeta in E |- *. rewrite E.
  match goal with |- (let* total := ?a in _) = _ => destruct a as [t| |]; cbn [bind]; auto end.
  unfold fin_int. change (inject_Z 255) with 255%Q. change (inject_Z 0) with 0%Q.
  destruct (Qltb 255 t); auto. destruct (Qltb t 0); auto.
Qed.

(** ** the threads of a launch *)
Definition threads (gx gy : nat) : list thread := list_prod (list_prod (seq 0 gx) (seq 0 gy)) (list_prod (seq 0 16) (seq 0 16)).
Definition launch_ok (order : nat -> nat -> list thread) : Prop := forall gx gy, Permutation (order gx gy) (threads gx gy).

Lemma threads_in gx gy bx by_ tx ty : In ((bx, by_), (tx, ty)) (threads gx gy) <-> (bx < gx /\ by_ < gy) /\ tx < 16 /\ ty < 16.
Proof. unfold threads. rewrite !in_prod_iff, !in_seq. lia. Qed.

Lemma scatter {I} (l : list I) (body : I -> list Z -> res (list Z)) (t : I -> option nat) (val : nat -> Z) n : forall buf, length buf = n ->
  (forall i b, In i l -> length b = n -> body i b = Ok (match t i with Some k => list_upd k (val k) b | None => b end)) ->
  (forall i k, In i l -> t i = Some k -> k < n) ->
  exists out, for_list l body buf = Ok out /\ length out = n /\
    forall k, k < n -> nth_error out k = if existsb (fun i => match t i with Some j => j =? k | None => false end) l then Some (val k) else nth_error buf k.
Proof.
  induction l as [|i l IH]; intros buf L HB HT; cbn [for_list existsb].
  - exists buf; auto.
  - rewrite (HB i buf) by (auto; left; auto). cbn [bind].
    assert (L' : length (match t i with Some k => list_upd k (val k) buf | None => buf end) = n).
    { destruct (t i); auto. rewrite list_upd_length; auto. }
    destruct (IH _ L') as (out & E & Lo & N); [intros; apply HB; auto; right; auto|intros; eapply HT; eauto; right; auto|].
    exists out; split; auto; split; auto. intros k Hk. rewrite N by auto.
    destruct (t i) as [j|] eqn:Ei; auto.
    destruct (Nat.eqb_spec j k) as [->|Nj]; cbn [orb].
    + destruct (existsb _ l); auto. rewrite list_upd_same by lia. auto.
    + destruct (existsb _ l); auto. apply list_upd_other; auto.
Qed.

Lemma blocks_ok n : 0 < n -> (Z.of_nat n < 2 ^ 31)%Z ->
  0 < blocks n /\ (Z.of_nat (blocks n) * 16 <= 2 ^ 31)%Z /\ n <= blocks n * 16 /\ (Z.of_nat (blocks n) = (Z.of_nat n + 15) / 16)%Z.
Proof.
  intros P B. unfold blocks.
  assert (E : w64 (Z.of_nat n + 15) = (Z.of_nat n + 15)%Z) by (unfold w64; apply Z.mod_small; unfold two64; lia).
  rewrite E. unfold u32. rewrite Z.mod_small by (split; [apply Z.div_pos; lia|apply Z.div_lt_upper_bound; lia]).
  assert (D : (Z.of_nat n + 15 = 16 * ((Z.of_nat n + 15) / 16) + (Z.of_nat n + 15) mod 16)%Z) by (apply Z.div_mod; lia).
  pose proof (Z.mod_pos_bound (Z.of_nat n + 15) 16 ltac:(lia)). rewrite Z2Nat.id by lia.
  set (q := ((Z.of_nat n + 15) / 16)%Z) in *. change (2 ^ 31)%Z with 2147483648%Z in *. lia.
Qed.

Lemma fint_fnat n : fint (Z.of_nat n) = fnat Qcfield n.
Proof. apply Qc_is_canon. rewrite this_fnat. unfold fint. rewrite this_Q2Qc. reflexivity. Qed.

Section Warped.
  Variable eps : Qc.
  Variables (src : image Z) (w h : nat) (f : nat -> nat -> Z).
  Hypothesis R : Repr src w h f.
  Hypothesis small : (Z.of_nat (w * h) < 2 ^ 31)%Z.
  Variables (ow oh : nat).
  Hypothesis Pw : 0 < ow.
  Hypothesis Ph : 0 < oh.
  Hypothesis osmall : (Z.of_nat (ow * oh) < 2 ^ 31)%Z.
  Variable m : nat -> nat -> Qc.

  Definition row_at (r x y : nat) : Qc := (m r 0%nat * fnat Qcfield x + m r 1%nat * fnat Qcfield y + m r 2%nat)%Qc.
  Definition sx (x y : nat) : Q := this (row_at 0 x y / row_at 2 x y)%Qc.
  Definition sy (x y : nat) : Q := this (row_at 1 x y / row_at 2 x y)%Qc.
  Definition hits (x y : nat) : bool :=
    @fltb Qcfield eps (@fabs Qcfield (row_at 2 x y)) &&
    (Qle_bool 0 (sx x y) && Qltb (sx x y) (qn w) && Qle_bool 0 (sy x y) && Qltb (sy x y) (qn h)).
  Definition value (x y : nat) : Z :=
    match interpolator_device (pix src) (Z.of_nat w) (Z.of_nat h) (sx x y) (sy x y) with Ok v => v | _ => 0%Z end.

  Lemma value_ok x y : hits x y = true -> interpolator_device (pix src) (Z.of_nat w) (Z.of_nat h) (sx x y) (sy x y) = Ok (value x y).
  Proof.
    intros HH. unfold hits in HH. apply andb_prop in HH as [_ HH]. apply andb_prop in HH as [HH H4]. apply andb_prop in HH as [HH H3].
    apply andb_prop in HH as [H1 H2]. apply Qle_bool_iff in H1, H3. apply Qltb_lt in H2, H4.
    unfold value. set (X := sx x y) in *. set (Y := sy x y) in *. clearbody X Y.
    assert (0 < w) by (apply qn_lt; change (qn 0) with 0%Q; lra). assert (0 < h) by (apply qn_lt; change (qn 0) with 0%Q; lra).
    destruct (deep_dec w h X Y) as [D|D].
    - rewrite (dev_deep src w h f) by auto. destruct (bicubic_total inject_Z (fin_int 0 255) 0%Z src w h f X Y R) as (v & ->). auto.
    - rewrite (dev_near src w h f) by auto. auto.
  Qed.

  Lemma thread_ok x y buf : length buf = ow * oh -> 
    warp_thread eps (pix src) (Z.of_nat w) (Z.of_nat h) (Z.of_nat ow) (Z.of_nat oh) m (Z.of_nat x) (Z.of_nat y) buf =
    Ok (if (x <? ow) && (y <? oh) && hits x y then list_upd (y * ow + x) (value x y) buf else buf).
  Proof.
    intros L. unfold warp_thread.
    replace (Z.of_nat x <? Z.of_nat ow)%Z with (x <? ow) by (destruct (Nat.ltb_spec x ow); symmetry; [apply Z.ltb_lt|apply Z.ltb_ge]; lia).
    replace (Z.of_nat y <? Z.of_nat oh)%Z with (y <? oh) by (destruct (Nat.ltb_spec y oh); symmetry; [apply Z.ltb_lt|apply Z.ltb_ge]; lia).
    destruct (Nat.ltb_spec x ow) as [Hx|]; [|reflexivity]. destruct (Nat.ltb_spec y oh) as [Hy|]; [|reflexivity]. cbn [andb]. cbv zeta.
    rewrite !fint_fnat. fold (row_at 2 x y). fold (row_at 0 x y). fold (row_at 1 x y). fold (sx x y) (sy x y).
    destruct (hits x y) eqn:HH.
    - pose proof (value_ok x y HH) as V. unfold hits in HH. apply andb_prop in HH as [-> HH].
      unfold qn in HH. rewrite HH. rewrite V. cbn [bind].
      assert (y * ow + x < ow * oh) by nia.
      rewrite i32_ok by nia. cbn [bind]. rewrite i32_ok by nia. cbn [bind]. unfold mem_set.
      replace (Z.of_nat y * Z.of_nat ow + Z.of_nat x <? 0)%Z with false by (symmetry; apply Z.ltb_ge; lia).
      replace (Z.to_nat (Z.of_nat y * Z.of_nat ow + Z.of_nat x)) with (y * ow + x) by nia. apply vset_ok. lia.
    - unfold hits in HH. destruct (@fltb Qcfield eps (@fabs Qcfield (row_at 2 x y))); auto. cbn [andb] in HH. unfold qn in HH. rewrite HH. auto.
  Qed.

  Lemma warp_kernel_ok order : launch_ok order ->
    exists out, warp_kernel eps (order (blocks ow) (blocks oh)) (pix src) (Z.of_nat w) (Z.of_nat h) (Z.of_nat ow) (Z.of_nat oh) m
        (repeat 0%Z (ow * oh)) = Ok out /\
      Repr (mkImage [ow; oh] out) ow oh (fun x y => if hits x y then value x y else 0%Z).
  Proof.
    intros HO. assert (Bw : (Z.of_nat ow < 2 ^ 31)%Z) by nia. assert (Bh : (Z.of_nat oh < 2 ^ 31)%Z) by nia.
    destruct (blocks_ok ow Pw Bw) as (_ & G1 & C1 & _). destruct (blocks_ok oh Ph Bh) as (_ & G2 & C2 & _).
    set (l := order (blocks ow) (blocks oh)).
    assert (IN : forall bx by_ tx ty, In ((bx, by_), (tx, ty)) l <-> (bx < blocks ow /\ by_ < blocks oh) /\ tx < 16 /\ ty < 16).
    { intros. rewrite <- threads_in. split; intros Hi; [eapply Permutation_in; [apply HO|exact Hi]|eapply Permutation_in; [apply Permutation_sym, HO|exact Hi]]. }
    set (px := fun t : thread => fst (fst t) * 16 + fst (snd t)). set (py := fun t : thread => snd (fst t) * 16 + snd (snd t)).
    destruct (scatter l (fun t warped_data =>
      let '((block_x, block_y), (thread_x, thread_y)) := t in
      let x := s32 (Z.of_nat block_x * 16 + Z.of_nat thread_x)%Z in
      let y := s32 (Z.of_nat block_y * 16 + Z.of_nat thread_y)%Z in
      warp_thread eps (pix src) (Z.of_nat w) (Z.of_nat h) (Z.of_nat ow) (Z.of_nat oh) m x y warped_data)
      (fun t => if (px t <? ow) && (py t <? oh) && hits (px t) (py t) then Some (py t * ow + px t) else None)
      (fun k => value (k mod ow) (k / ow)) (ow * oh) (repeat 0%Z (ow * oh))) as (out & E & L & N).
    - apply repeat_length.
    - intros [[bx by_] [tx ty]] b Hi Lb. apply IN in Hi. cbv zeta.
      rewrite !s32_small by lia.
      replace (Z.of_nat bx * 16 + Z.of_nat tx)%Z with (Z.of_nat (bx * 16 + tx)) by lia.
      replace (Z.of_nat by_ * 16 + Z.of_nat ty)%Z with (Z.of_nat (by_ * 16 + ty)) by lia.
      rewrite thread_ok by auto. unfold px, py; cbn [fst snd].
      destruct ((bx * 16 + tx <? ow) && (by_ * 16 + ty <? oh) && hits (bx * 16 + tx) (by_ * 16 + ty)) eqn:C; [|reflexivity].
      apply andb_prop in C as [C _]. apply andb_prop in C as [C3 C4]. apply Nat.ltb_lt in C3, C4.
      assert (E1 : ((by_ * 16 + ty) * ow + (bx * 16 + tx)) mod ow = bx * 16 + tx) by (rewrite Nat.add_comm, Nat.mod_add by lia; apply Nat.mod_small; auto).
      assert (E2 : ((by_ * 16 + ty) * ow + (bx * 16 + tx)) / ow = by_ * 16 + ty) by (rewrite Nat.div_add_l by lia; rewrite Nat.div_small by auto; lia).
      rewrite E1, E2. reflexivity.
    - intros t k Hi. destruct ((px t <? ow) && (py t <? oh) && hits (px t) (py t)) eqn:C; [|discriminate].
      intros [= <-]. apply andb_prop in C as [C _]. apply andb_prop in C as [C3 C4]. apply Nat.ltb_lt in C3, C4. nia.
    - exists out. split; [exact E|]. split; [reflexivity|]. cbn [pix]. split; [lia|].
      intros x y Hx Hy. rewrite N by nia.
      assert (Dm : (y * ow + x) mod ow = x) by (rewrite Nat.add_comm, Nat.mod_add by lia; apply Nat.mod_small; auto).
      assert (Dd : (y * ow + x) / ow = y) by (rewrite Nat.div_add_l by lia; rewrite Nat.div_small by auto; lia).
      destruct (existsb _ l) eqn:X.
      + apply existsb_exists in X as (t & Ht & Et).
        destruct ((px t <? ow) && (py t <? oh) && hits (px t) (py t)) eqn:C; [|discriminate].
        apply Nat.eqb_eq in Et. apply andb_prop in C as [C HH]. apply andb_prop in C as [C3 C4]. apply Nat.ltb_lt in C3, C4.
        assert (px t = x /\ py t = y) as [<- <-].
        { split; [rewrite <- Dm, <- Et, Nat.add_comm, Nat.mod_add by lia; symmetry; apply Nat.mod_small; auto|].
          rewrite <- Dd, <- Et, Nat.div_add_l by lia. rewrite Nat.div_small by auto. lia. }
        rewrite HH, Dm, Dd. auto.
      + rewrite nth_error_repeat by nia. destruct (hits x y) eqn:HH; auto. exfalso.
        assert (existsb (fun i => match (if (px i <? ow) && (py i <? oh) && hits (px i) (py i) then Some (py i * ow + px i) else None) with
          Some j => j =? y * ow + x | None => false end) l = true); [|congruence].
        apply existsb_exists. exists ((x / 16, y / 16), (x mod 16, y mod 16)).
        pose proof (Nat.div_mod x 16 ltac:(lia)). pose proof (Nat.div_mod y 16 ltac:(lia)).
        pose proof (Nat.mod_upper_bound x 16 ltac:(lia)). pose proof (Nat.mod_upper_bound y 16 ltac:(lia)).
        assert (Ex : px ((x / 16, y / 16), (x mod 16, y mod 16)) = x) by (unfold px; cbn [fst snd]; lia).
        assert (Ey : py ((x / 16, y / 16), (x mod 16, y mod 16)) = y) by (unfold py; cbn [fst snd]; lia).
        split.
        * apply IN. repeat split; auto; lia.
        * rewrite Ex, Ey, HH. replace (x <? ow) with true by (symmetry; apply Nat.ltb_lt; auto). replace (y <? oh) with true by (symmetry; apply Nat.ltb_lt; auto).
          cbn [andb]. apply Nat.eqb_refl.
  Qed.
End Warped.

(** ** the host *)
Lemma coefficients_ok (H : matrix Qcfield) f : MRepr H 3 3 f ->
  exists m, coefficients H = Ok m /\ forall r k, r < 3 -> k < 3 -> m r k = f r k.
Proof.
  intros M. unfold coefficients.
  rewrite (mat_at_ok H 3 3 f 0 0), (mat_at_ok H 3 3 f 0 1), (mat_at_ok H 3 3 f 0 2), (mat_at_ok H 3 3 f 1 0), (mat_at_ok H 3 3 f 1 1), (mat_at_ok H 3 3 f 1 2),
    (mat_at_ok H 3 3 f 2 0), (mat_at_ok H 3 3 f 2 1), (mat_at_ok H 3 3 f 2 2) by (auto; lia).
  cbn [bind]. eexists; split; [reflexivity|]. intros r k Hr Hk.
  destruct r as [|[|[|]]]; try lia; destruct k as [|[|[|]]]; try lia; reflexivity.
Qed.
