(** PropCuda.v - C167 to C170: perspective warping and stitching on a CUDA device. *)
From Coq Require Import QArith Qcanon Qround Qabs Lia ZifyBool ZifyNat Permutation Lqa.
From Verif Require Import Base ImageModel ImageFacts PixelModel PixelProofs OField LinModel LinProofs InterpModel InterpProofs PropInterp HomModel HomProofs WarpProofs PropLin PropStitch CudaModel CudaProofs.
Open Scope nat_scope.

(** the three linear forms of a matrix at a pixel *)
Definition along (m : nat -> nat -> Qcfield) (r x y : nat) : Qc := (m r 0%nat * fnat Qcfield x + m r 1%nat * fnat Qcfield y + m r 2%nat)%Qc.

(** [k] is the pixel nearest to the position [X], the later one when two are equally near *)
Definition nearest (n : nat) (X : Q) (k : nat) : Prop :=
  k < n /\ forall j, j < n -> (Qabs (X - qn k) <= Qabs (X - qn j))%Q /\ ((Qabs (X - qn k) == Qabs (X - qn j))%Q -> j <= k).

(** at least one pixel from the left and upper edge and more than two from the right and lower one *)
Definition interior (w h : nat) (X Y : Q) : Prop := (1 <= X < qn w - 2 /\ 1 <= Y < qn h - 2)%Q.

(** the byte [v] is the picture [f] read at (X, Y): bicubic in the interior, the nearest pixel near the edges *)
Definition sampled (w h : nat) (f : nat -> nat -> Z) (X Y : Q) (v : Z) : Prop :=
  (interior w h X Y -> shown_int 0 255 (qsum h (fun j => qsum w (fun i => inject_Z (f i j) * keys (X - qn i)) * keys (Y - qn j)))%Q v) /\
  (~ interior w h X Y -> exists i j, nearest w X i /\ nearest h Y j /\ v = f i j).

Lemma nearest_ok n X : 0 < n -> (0 <= X < qn n)%Q -> nearest n X (nearest_px n X).
Proof.
  intros Hn [L U]. split; [apply nearest_lt; auto|]. intros j Hj. unfold nearest_px.
  set (r := Qfloor (X + (1 # 2))). pose proof (Qfloor_le (X + (1 # 2))) as F1. pose proof (Qlt_floor (X + (1 # 2))) as F2. fold r in F1, F2.
  rewrite inject_Z_plus in F2. change (inject_Z 1) with 1%Q in F2.
  assert (R0 : (0 <= r)%Z) by (unfold r; change 0%Z with (Qfloor 0); apply Qfloor_resp_le; lra).
  assert (Er : (inject_Z r == qn (Z.to_nat r))%Q) by (unfold qn; rewrite Z2Nat.id by auto; reflexivity).
  set (k := Z.to_nat r) in *. clearbody k. rewrite Er in F1, F2.
  assert (C : k <= n - 1 \/ (k = n /\ Nat.min (n - 1) k = n - 1)).
  { assert (G : (qn k < qn (n + 1))%Q) by (rewrite qn_S; lra). apply qn_lt in G. lia. }
  assert (Q1 : forall a b, a < b -> (qn a + 1 <= qn b)%Q) by (intros a b Hab; rewrite <- qn_S; apply qn_le; lia).
  assert (Key : forall k', (k' = k \/ (k' = n - 1 /\ k = n)) -> ((Qabs (X - qn k') <= Qabs (X - qn j))%Q /\ ((Qabs (X - qn k') == Qabs (X - qn j))%Q -> j <= k'))).
  { intros k' Hk'.
    assert (Hb : (X - qn k' < 1)%Q /\ (- (1 # 2) <= X - qn k')%Q /\ ((k' < n - 1)%nat -> X - qn k' < 1 # 2)%Q).
    { destruct Hk' as [->|[-> ->]].
      - repeat split; lra.
      - assert (E : (qn n == qn (n - 1) + 1)%Q) by (rewrite <- qn_S; replace (n - 1 + 1) with n by lia; reflexivity).
        repeat split; try lra. intros; lia. }
    destruct Hb as (B1 & B2 & B3).
    destruct (Nat.lt_trichotomy j k') as [Hlt|[->|Hgt]].
    - pose proof (Q1 j k' Hlt). split; [|intros; lia].
      rewrite (Qabs_pos (X - qn j)) by lra. apply Qabs_case; intros; lra.
    - split; [apply Qle_refl|intros; lia].
    - pose proof (Q1 k' j Hgt). assert (X - qn k' < 1 # 2)%Q by (apply B3; lia).
      assert (qn k' < qn j)%Q by lra.
      rewrite (Qabs_neg (X - qn j)) by lra. split.
      + apply Qabs_case; intros; lra.
      + intros E. exfalso. revert E. apply Qabs_case; intros; lra. }
  apply Key. lia.
Qed.

Lemma this_fabs (a : Qc) : (this (@fabs Qcfield a) == Qabs (this a))%Q.
Proof.
  unfold fabs. destruct (@fltb Qcfield a f0) eqn:E.
  - apply qcltb_true in E. change (this (@f0 Qcfield)) with 0%Q in E. change (@fopp Qcfield a) with (- a)%Qc. rewrite this_opp, Qabs_neg; lra.
  - apply qcltb_nle in E. change (this (@f0 Qcfield)) with 0%Q in E. rewrite Qabs_pos; [reflexivity|lra].
Qed.

Lemma keys_comp a b : (a == b)%Q -> (keys a == keys b)%Q.
Proof.
  intros E. assert (EA : (Qabs a == Qabs b)%Q) by (rewrite E; reflexivity). unfold keys.
  destruct (Qle_bool (Qabs a) 1) eqn:A1, (Qle_bool (Qabs b) 1) eqn:B1;
    rewrite ?Qle_bool_iff, ?Qle_bool_false in A1; rewrite ?Qle_bool_iff, ?Qle_bool_false in B1; try lra.
  - rewrite EA. reflexivity.
  - destruct (Qle_bool (Qabs a) 2) eqn:A2, (Qle_bool (Qabs b) 2) eqn:B2;
      rewrite ?Qle_bool_iff, ?Qle_bool_false in A2; rewrite ?Qle_bool_iff, ?Qle_bool_false in B2; try lra; try reflexivity.
    rewrite EA. reflexivity.
Qed.
Lemma sampled_comp w h f X Y X' Y' v : (X == X')%Q -> (Y == Y')%Q -> sampled w h f X Y v -> sampled w h f X' Y' v.
Proof.
  intros EX EY [A B]. assert (I : interior w h X Y <-> interior w h X' Y') by (unfold interior; rewrite EX, EY; reflexivity).
  split; intros D.
  - apply I in D. eapply shown_int_comp; [|exact (A D)]. apply qsum_ext. intros j _. cbv beta.
    rewrite (qsum_ext w _ (fun i => inject_Z (f i j) * keys (X' - qn i))%Q).
    + rewrite (keys_comp (Y - qn j) (Y' - qn j)) by (rewrite EY; reflexivity). reflexivity.
    + intros i _. rewrite (keys_comp (X - qn i) (X' - qn i)) by (rewrite EX; reflexivity). reflexivity.
  - rewrite <- I in D. destruct (B D) as (i & j & Ni & Nj & E). exists i, j. split; [|split; auto].
    + destruct Ni as [L M]. split; auto. intros l Hl. rewrite <- EX. apply M; auto.
    + destruct Nj as [L M]. split; auto. intros l Hl. rewrite <- EY. apply M; auto.
Qed.

(** where the warped picture shows something of the source *)
Definition visible (eps : Qc) (m : nat -> nat -> Qcfield) (w h x y : nat) : Prop :=
  let W := along m 2 x y in
  (this eps < Qabs (this W) /\ 0 <= this (along m 0 x y / W)%Qc < qn w /\ 0 <= this (along m 1 x y / W)%Qc < qn h)%Q.

Lemma hits_visible eps w h m x y : hits eps w h m x y = true <-> visible eps m w h x y.
Proof.
  unfold hits, visible. rewrite !Bool.andb_true_iff, !Qle_bool_iff, !Qltb_lt, qcltb_true, this_fabs.
  unfold sx, sy. change (row_at m) with (along m). tauto.
Qed.

Lemma value_sampled src w h f m x y eps : Repr src w h f -> (Z.of_nat (w * h) < 2 ^ 31)%Z -> hits eps w h m x y = true ->
  sampled w h f (this (along m 0 x y / along m 2 x y)%Qc) (this (along m 1 x y / along m 2 x y)%Qc) (value src w h m x y).
Proof.
  intros R S HH. pose proof (value_ok eps src w h f R S m x y HH) as V. apply hits_visible in HH. destruct HH as (_ & HX & HY).
  change (along m) with (row_at m) in *. fold (sx m x y) in *. fold (sy m x y) in *.
  set (X := sx m x y) in *. set (Y := sy m x y) in *. clearbody X Y. set (v := value src w h m x y) in *. clearbody v.
  assert (0 < w) by (apply qn_lt; change (qn 0) with 0%Q; lra). assert (0 < h) by (apply qn_lt; change (qn 0) with 0%Q; lra).
  split; intros D.
  - rewrite (dev_deep src w h f) in V by auto.
    destruct (C48_bicubic_formula_int 0 255 src w h f X Y ltac:(lia) R (proj1 D) (proj2 D)) as (v' & E & Sh).
    unfold bicubic_z in E. rewrite E in V. injection V as <-. exact Sh.
  - rewrite (dev_near src w h f) in V by (auto; apply HX || apply HY). injection V as <-.
    exists (nearest_px w X), (nearest_px h Y). split; [apply nearest_ok; auto|]. split; [apply nearest_ok; auto|reflexivity].
Qed.

(** a picture that fits an int, and a canvas that a launch accepts *)
Definition fits_int (w h : nat) : Prop := (Z.of_nat w < 2 ^ 31 /\ Z.of_nat h < 2 ^ 31 /\ Z.of_nat (w * h) < 2 ^ 31)%Z.
Definition canvas_ok (ow oh : nat) : Prop := 0 < ow /\ 0 < oh /\ fits_int ow oh /\ (Z.of_nat oh <= 1048560)%Z.

Lemma launchable_ok ow oh : canvas_ok ow oh -> launchable (blocks ow) (blocks oh) = true.
Proof.
  intros (P1 & P2 & (F1 & F2 & F3) & F4). destruct (blocks_ok ow P1 F1) as (A1 & A2 & _ & _). destruct (blocks_ok oh P2 F2) as (B1 & B2 & _ & B4).
  unfold launchable. rewrite !Bool.andb_true_iff, !Nat.ltb_lt, !Z.leb_le.
  assert (Z.of_nat (blocks oh) <= 65535)%Z.
  { rewrite B4. apply Z.lt_succ_r. apply Z.div_lt_upper_bound; lia. }
  change (2 ^ 31)%Z with 2147483648%Z in *. lia.
Qed.

(** what the launch computes *)
Lemma launch_result eps order src w h f H m ow oh : Repr src w h f -> fits_int w h -> canvas_ok ow oh -> MRepr H 3 3 m -> launch_ok order ->
  exists out c, coefficients H = Ok c /\
    warp_kernel eps (order (blocks ow) (blocks oh)) (pix src) (s32 (Z.of_nat w)) (s32 (Z.of_nat h)) (s32 (Z.of_nat ow)) (s32 (Z.of_nat oh)) c
      (repeat 0%Z (Z.to_nat (w64 (Z.of_nat ow * Z.of_nat oh)))) = Ok out /\
    Repr (mkImage [ow; oh] out) ow oh (fun x y => if hits eps w h m x y then value src w h m x y else 0%Z).
Proof.
  intros R (F1 & F2 & F3) (P1 & P2 & (G1 & G2 & G3) & G4) M HO.
  destruct (coefficients_ok H m M) as (c & Ec & Hc).
  destruct (warp_kernel_ok eps src w h f R F3 ow oh P1 P2 G3 c order HO) as (out & E & Ro).
  exists out, c. split; auto. split.
  - rewrite !s32_small by lia. replace (Z.to_nat (w64 (Z.of_nat ow * Z.of_nat oh))) with (ow * oh); auto.
    unfold w64. rewrite Z.mod_small; [lia|]. split; [lia|]. unfold two64. change (2 ^ 31)%Z with 2147483648%Z in *. nia.
  - assert (Er : forall r x y, r < 3 -> row_at c r x y = row_at m r x y) by (intros r x y Hr; unfold row_at; rewrite !Hc by lia; reflexivity).
    eapply Repr_ext; [exact Ro|]. intros x y _ _. cbn beta. unfold hits, value, sx, sy. rewrite !Er by lia. reflexivity.
Qed.

(** ** C167  warp_perspective_cuda *)
(** When every call of the runtime succeeds, each pixel of the canvas is the source read at the image of the pixel under the
    matrix, or black where the denominator is small or that position is not on the source.  Every order of the threads. *)
Theorem C167_warp : forall eps works order src w h f H m ow oh,
  Repr src w h f -> fits_int w h -> canvas_ok ow oh -> MRepr H 3 3 m -> (forall c, works c = true) -> launch_ok order ->
  exists out p, snd (warp_perspective_cuda eps works order src H ow oh) = Ok out /\ Repr out ow oh p /\
    forall x y, x < ow -> y < oh ->
      (visible eps m w h x y -> sampled w h f (this (along m 0 x y / along m 2 x y)%Qc) (this (along m 1 x y / along m 2 x y)%Qc) (p x y)) /\
      (~ visible eps m w h x y -> p x y = 0%Z).
Proof.
  intros eps works order src w h f H m ow oh R F C M HW HO.
  destruct (launch_result eps order src w h f H m ow oh R F C M HO) as (out & c & Ec & E & Ro).
  exists (mkImage [ow; oh] out), (fun x y => if hits eps w h m x y then value src w h m x y else 0%Z). split; [|split; [exact Ro|]].
  - unfold warp_perspective_cuda, warp_try, andthen, cuda_malloc, cuda_free, check, pure, launch.
    rewrite !HW, (get_width_Repr _ _ _ _ R), (get_height_Repr _ _ _ _ R), Ec, (launchable_ok ow oh C). cbn [bind negb]. rewrite E. reflexivity.
  - intros x y _ _. destruct (hits eps w h m x y) eqn:HH.
    + split; [intros _; apply (value_sampled src w h f m x y eps R (proj2 (proj2 F)) HH)|]. intros N. exfalso. apply N, hits_visible; auto.
    + split; [|auto]. intros V. apply hits_visible in V. congruence.
Qed.
Print Assumptions C167_warp.

(** The colour version does this to each of the three planes. *)
Theorem C167_rgb : forall eps s works order src w h f H m ow oh,
  sched1_ok s -> Repr src w h f -> 0 < w -> 0 < h -> (forall i j, i < w -> j < h -> rgb (f i j)) ->
  fits_int w h -> canvas_ok ow oh -> MRepr H 3 3 m -> (forall k c, works k c = true) -> (forall k, launch_ok (order k)) ->
  exists out p, warp_perspective_cuda_rgb eps s works order src H ow oh = Ok out /\ Repr out ow oh p /\
    forall x y, x < ow -> y < oh -> rgb (p x y) /\
      (visible eps m w h x y -> forall k, k < 3 -> sampled w h (fun i j => nth k (f i j) 0%Z)
        (this (along m 0 x y / along m 2 x y)%Qc) (this (along m 1 x y / along m 2 x y)%Qc) (nth k (p x y) 0%Z)) /\
      (~ visible eps m w h x y -> p x y = [0; 0; 0]%Z).
Proof.
  intros eps s works order src w h f H m ow oh Hs R Hw Hh B F C M HW HO.
  assert (G : forall k, k < 3 -> exists pl out p, get_plane s 0%Z src k = Ok pl /\ Repr pl w h (fun i j => nth k (f i j) 0%Z) /\
    snd (warp_perspective_cuda eps (works k) (order k) pl H ow oh) = Ok out /\ Repr out ow oh p /\
    forall x y, x < ow -> y < oh -> 
      (visible eps m w h x y -> sampled w h (fun i j => nth k (f i j) 0%Z) (this (along m 0 x y / along m 2 x y)%Qc) (this (along m 1 x y / along m 2 x y)%Qc) (p x y)) /\
      (~ visible eps m w h x y -> p x y = 0%Z)).
  { intros k Hk.
    destruct (get_plane_ReprN s Hs 0%Z src [w; h] _ k (fun l => nth k (f (nth 0 l 0) (nth 1 l 0)) 0%Z) (proj1 (Repr_ReprN src w h f) R)) as (pl & E & Rp).
    - cbn. nia.
    - intros idx HI. destruct idx as [|i [|j [|? ?]]]; try (apply in_range_length in HI; simpl in HI; lia).
      apply in_range2 in HI. cbn [nth]. apply nth_error_nth'. rewrite (proj1 (B i j (proj1 HI) (proj2 HI))). auto.
    - assert (Rp2 : Repr pl w h (fun i j => nth k (f i j) 0%Z)) by (apply Repr_ReprN; exact Rp).
      destruct (C167_warp eps (works k) (order k) pl w h _ H m ow oh Rp2 F C M (HW k) (HO k)) as (out & p & E2 & Ro & V).
      exists pl, out, p. auto. }
  destruct (G 0 ltac:(lia)) as (pl0 & o0 & p0 & E0 & Rp0 & W0 & R0 & V0).
  destruct (G 1 ltac:(lia)) as (pl1 & o1 & p1 & E1 & Rp1 & W1 & R1 & V1).
  destruct (G 2 ltac:(lia)) as (pl2 & o2 & p2 & E2 & Rp2 & W2 & R2 & V2).
  unfold warp_perspective_cuda_rgb. rewrite E0, E1, E2. cbn [bind]. rewrite W0, W1, W2. cbn [bind].
  destruct (construct3_ReprN s Hs rgb0 o0 o1 o2 [ow; oh] _ _ _ (proj1 (Repr_ReprN o0 ow oh p0) R0) (proj1 (Repr_ReprN o1 ow oh p1) R1) (proj1 (Repr_ReprN o2 ow oh p2) R2)) as (out & E & Ro).
  { cbn. destruct C as (C1 & C2 & _). nia. }
  exists out, (fun x y => [p0 x y; p1 x y; p2 x y]). split; auto. split; [apply Repr_ReprN; exact Ro|].
  intros x y Hx Hy. destruct (V0 x y Hx Hy) as [A0 N0]. destruct (V1 x y Hx Hy) as [A1 N1]. destruct (V2 x y Hx Hy) as [A2 N2].
  assert (BY : forall k v, k < 3 -> (visible eps m w h x y -> sampled w h (fun i j => nth k (f i j) 0%Z) (this (along m 0 x y / along m 2 x y)%Qc) (this (along m 1 x y / along m 2 x y)%Qc) v) ->
     (~ visible eps m w h x y -> v = 0%Z) -> byte v).
  { intros k v Hk A N. destruct (hits eps w h m x y) eqn:HH.
    - apply hits_visible in HH. specialize (A HH). destruct A as [A1' A2'].
      destruct (deep_dec w h (this (along m 0 x y / along m 2 x y)%Qc) (this (along m 1 x y / along m 2 x y)%Qc)) as [D|D].
      + specialize (A1' D). set (q := qsum h _) in A1'. clearbody q. destruct A1' as (U1 & U2 & U3).
        destruct (Qlt_le_dec q 0) as [L0|L0]; [rewrite U2 by (change (inject_Z 0) with 0%Q; lra); unfold byte; lia|].
        destruct (Qlt_le_dec 255 q) as [L1|L1]; [rewrite U1 by (change (inject_Z 255) with 255%Q; lra); unfold byte; lia|].
        destruct U3 as [U3 _]; [change (inject_Z 0) with 0%Q; change (inject_Z 255) with 255%Q; lra|].
        destruct (U3 L0) as [U4 U5]. unfold byte. split.
        * assert (T : (inject_Z (-1) < inject_Z v)%Q) by (change (inject_Z (-1)) with (-1)%Q; lra). rewrite <- Zlt_Qlt in T. lia.
        * rewrite Zle_Qle. change (inject_Z 255) with 255%Q. lra.
      + destruct (A2' D) as (i & j & Ni & Nj & ->). pose proof (B i j (proj1 Ni) (proj1 Nj)) as [Lf Ff].
        rewrite Forall_forall in Ff. apply Ff, nth_In. lia.
    - rewrite N; [unfold byte; lia|]. intros V. apply hits_visible in V. congruence. }
  split; [|split].
  - split; [reflexivity|]. apply Forall_cons; [|apply Forall_cons; [|apply Forall_cons; [|apply Forall_nil]]]; [apply (BY 0)|apply (BY 1)|apply (BY 2)]; auto; lia.
  - intros V k Hk. destruct k as [|[|[|]]]; [exact (A0 V)|exact (A1 V)|exact (A2 V)|lia].
  - intros N. rewrite N0, N1, N2; auto.
Qed.
Print Assumptions C167_rgb.

(** a picture of one byte per pixel *)
Definition bytes (w h : nat) (f : nat -> nat -> Z) : image Z := mkImage [w; h] (map (fun k => f (k mod w) (k / w)) (seq 0 (w * h))).
Definition millionth : Qc := Q2Qc (1 # 1000000).
Definition all_work (c : call) : bool := true.
(** the translation by (a, b) *)
Definition moves (a b : Q) : matrix Qcfield := mkMatrix 3 3 [Q2Qc 1; Q2Qc 0; Q2Qc a; Q2Qc 0; Q2Qc 1; Q2Qc b; Q2Qc 0; Q2Qc 0; Q2Qc 1].

(** Half a pixel to the right on a picture whose brightness grows by ten from column to column: between two columns in the
    interior, the nearest column near the edges, black where the source has no column left. *)
Example C167_case : snd (warp_perspective_cuda millionth all_work threads (bytes 6 6 (fun x _ => 10 * Z.of_nat x)%Z) (moves (1 # 2) 2) 6 2) =
  Ok (mkImage [6; 2] [10; 15; 25; 35; 50; 50;  10; 15; 25; 35; 50; 50]%Z).
Proof. vm_compute. reflexivity. Qed.

(** all courses of the call: the answers of the runtime, and the result of the launch *)
Ltac answers := repeat (cbv beta iota zeta delta [andthen cuda_malloc cuda_free check pure catch_free holds_pointer existsb buffer_eqb live set_ freed fst snd filter negb orb];
  match goal with
  | HS : ?w (Free_in_catch Source) = true |- context [?w (Free_in_catch Source)] => rewrite HS
  | HV : ?w (Free_in_catch Warped) = true |- context [?w (Free_in_catch Warped)] => rewrite HV
  | |- context [if ?w ?c then _ else _] => is_var w; destruct (w c) eqn:?
  | |- context [if ?b then _ else _] => is_var b; destruct b
  | |- context [match ?i with Ok _ => _ | Throw _ => _ | UB => _ end] => is_var i; destruct i
  end); cbv beta iota zeta delta [andthen cuda_malloc cuda_free check pure catch_free holds_pointer existsb buffer_eqb live set_ freed fst snd filter negb orb].
Ltac open_call := unfold warp_perspective_cuda, warp_try;
  match goal with |- context [launch ?a ?b ?c ?d ?e ?f ?g] => let inner := fresh "inner" in set (inner := launch a b c d e f g); clearbody inner end;
  match goal with |- context [cuda_malloc _ Source ?n] => unfold cuda_malloc at 1; let n1 := fresh "n1" in set (n1 := n =? 0); clearbody n1 end;
  match goal with |- context [cuda_malloc _ Warped ?n] => unfold cuda_malloc at 1; let n2 := fresh "n2" in set (n2 := n =? 0); clearbody n2 end;
  unfold andthen, check, pure, cuda_free, catch_free, holds_pointer; answers.

(** ** C168  the runtime's errors and the device's memory *)
(** Whatever the answers of the calls, the inputs and the order of the threads: when the call comes to an end and the two
    cudaFree of its handler work, nothing stays allocated. *)
Theorem C168_no_leak : forall eps works order src H ow oh d r,
  warp_perspective_cuda eps works order src H ow oh = (d, r) -> r <> UB ->
  (forall b, works (Free_in_catch b) = true) -> live d = [].
Proof.
  intros eps works order src H ow oh d r E N HF.
  pose proof (HF Source) as HS. pose proof (HF Warped) as HV. revert E. open_call.
  all: intros [= <- <-]; first [reflexivity | congruence].
Qed.
Print Assumptions C168_no_leak.

(** the calls of the runtime that the function makes before it returns its result *)
Definition tried : list call := [Malloc Source; Malloc Warped; Copy_in; Memset; Launch; Synchronize; Copy_out; Free Source; Free Warped].

(** A result means that every one of them worked, that it has the size asked for, and that nothing stays allocated. *)
Theorem C168_reported : forall eps works order src H ow oh d im,
  warp_perspective_cuda eps works order src H ow oh = (d, Ok im) ->
  (forall c, In c tried -> works c = true) /\ dims im = [ow; oh] /\ live d = [].
Proof.
  intros eps works order src H ow oh d im. open_call.
  all: intros [= <- <-]; (split; [|split; reflexivity]); intros c Hc; cbn in Hc;
    repeat (destruct Hc as [<-|Hc]; [assumption|]); destruct Hc.
Qed.
Print Assumptions C168_reported.

(** On valid inputs any failing call ends the function by a std::runtime_error. *)
Theorem C168_throws : forall eps works order src w h f H m ow oh,
  Repr src w h f -> fits_int w h -> canvas_ok ow oh -> MRepr H 3 3 m -> launch_ok order ->
  (exists c, In c tried /\ works c = false) ->
  snd (warp_perspective_cuda eps works order src H ow oh) = Throw RuntimeError.
Proof.
  intros eps works order src w h f H m ow oh R F C M HO (c & Hc & Hf).
  destruct (launch_result eps order src w h f H m ow oh R F C M HO) as (out & k & Ek & E & Ro).
  assert (EL : launch eps order src H ow oh (Z.to_nat (w64 (Z.of_nat ow * Z.of_nat oh))) = Ok out).
  { unfold launch. rewrite (get_width_Repr _ _ _ _ R), (get_height_Repr _ _ _ _ R), Ek, (launchable_ok ow oh C). exact E. }
  unfold warp_perspective_cuda, warp_try. rewrite EL. clear EL E Ro.
  match goal with |- context [cuda_malloc _ Source ?n] => unfold cuda_malloc at 1; set (n1 := n =? 0); clearbody n1 end.
  match goal with |- context [cuda_malloc _ Warped ?n] => unfold cuda_malloc at 1; set (n2 := n =? 0); clearbody n2 end.
  unfold andthen, check, pure, cuda_free, catch_free, holds_pointer. answers.
  all: try reflexivity. all: exfalso; cbn in Hc; repeat (destruct Hc as [<-|Hc]; [congruence|]); destruct Hc.
Qed.
Print Assumptions C168_throws.

(** A canvas without pixels, or higher than 1048560 rows, is refused by std::runtime_error whatever the runtime answers. *)
Theorem C168_sizes : forall eps works order src w h f H m ow oh,
  Repr src w h f -> MRepr H 3 3 m -> (Z.of_nat ow < 2 ^ 31)%Z -> (Z.of_nat oh < 2 ^ 31)%Z ->
  ow = 0 \/ oh = 0 \/ (1048560 < Z.of_nat oh)%Z ->
  snd (warp_perspective_cuda eps works order src H ow oh) = Throw RuntimeError.
Proof.
  intros eps works order src w h f H m ow oh R M F1 F2 Z0.
  destruct (coefficients_ok H m M) as (c & Ec & Hc).
  assert (EB : forall n, (Z.of_nat n < 2 ^ 31)%Z -> Z.of_nat (blocks n) = ((Z.of_nat n + 15) / 16)%Z).
  { intros n Hn. unfold blocks, u32, w64. change (2 ^ 31)%Z with 2147483648%Z in Hn. rewrite (Z.mod_small (Z.of_nat n + 15)) by (unfold two64; lia).
    assert (0 <= (Z.of_nat n + 15) / 16 < 2147483648)%Z by (split; [apply Z.div_pos; lia|apply Z.div_lt_upper_bound; lia]).
    rewrite Z.mod_small by (change (2 ^ 32)%Z with 4294967296%Z; lia). rewrite Z2Nat.id; lia. }
  assert (L : launchable (blocks ow) (blocks oh) = false).
  { pose proof (EB ow F1) as B1. pose proof (EB oh F2) as B2. unfold launchable. rewrite !Bool.andb_false_iff, !Nat.ltb_ge, !Z.leb_gt.
    destruct Z0 as [->|[->|Hb]].
    - left; left; left. change ((Z.of_nat 0 + 15) / 16)%Z with 0%Z in B1. lia.
    - left; left; right. change ((Z.of_nat 0 + 15) / 16)%Z with 0%Z in B2. lia.
    - right. rewrite B2. apply Z.lt_le_trans with 65536%Z; [lia|]. apply Z.div_le_lower_bound; lia. }
  assert (EL : forall b, launch eps order src H ow oh b = Throw RuntimeError).
  { intros b. unfold launch. rewrite (get_width_Repr _ _ _ _ R), (get_height_Repr _ _ _ _ R), Ec, L. reflexivity. }
  unfold warp_perspective_cuda, warp_try. rewrite EL.
  match goal with |- context [cuda_malloc _ Source ?n] => unfold cuda_malloc at 1; set (n1 := n =? 0); clearbody n1 end.
  match goal with |- context [cuda_malloc _ Warped ?n] => unfold cuda_malloc at 1; set (n2 := n =? 0); clearbody n2 end.
  unfold andthen, check, pure, cuda_free, catch_free, holds_pointer. answers.
  all: reflexivity.
Qed.
Print Assumptions C168_sizes.

(** When the two cudaFree of the body work, no buffer is handed to cudaFree twice. *)
Theorem C168_once : forall eps works order src H ow oh d r,
  warp_perspective_cuda eps works order src H ow oh = (d, r) -> works (Free Source) = true -> works (Free Warped) = true -> NoDup (freed d).
Proof.
  intros eps works order src H ow oh d r E F1 F2. revert E. open_call.
  all: intros [= <- <-]; try congruence.
  all: cbn [freed]; repeat (apply NoDup_cons; [cbn; intuition discriminate|]); apply NoDup_nil.
Qed.
Print Assumptions C168_once.

(** When the second one fails, the handler hands both buffers to cudaFree again, the first although it is free by then. *)
Theorem C168_twice : forall eps works order src w h f H m ow oh,
  Repr src w h f -> 0 < w -> 0 < h -> fits_int w h -> canvas_ok ow oh -> MRepr H 3 3 m -> launch_ok order ->
  (forall c, works c = false <-> c = Free Warped) ->
  freed (fst (warp_perspective_cuda eps works order src H ow oh)) = [Warped; Source; Warped; Source].
Proof.
  intros eps works order src w h f H m ow oh R Pw Ph F C M HO HW.
  destruct (launch_result eps order src w h f H m ow oh R F C M HO) as (out & k & Ek & E & Ro).
  assert (EL : launch eps order src H ow oh (Z.to_nat (w64 (Z.of_nat ow * Z.of_nat oh))) = Ok out).
  { unfold launch. rewrite (get_width_Repr _ _ _ _ R), (get_height_Repr _ _ _ _ R), Ek, (launchable_ok ow oh C). exact E. }
  assert (N1 : (count src =? 0) = false).
  { destruct R as (D & _). unfold count. rewrite D, Nat.eqb_neq. cbn. nia. }
  assert (N2 : (Z.to_nat (w64 (Z.of_nat ow * Z.of_nat oh)) =? 0) = false).
  { destruct C as (P1 & P2 & (G1 & G2 & G3) & _). apply Nat.eqb_neq. unfold w64. change (2 ^ 31)%Z with 2147483648%Z in *.
    rewrite Z.mod_small by (unfold two64; nia). nia. }
  assert (T : forall c, c <> Free Warped -> works c = true) by (intros c Hc; destruct (works c) eqn:Q; auto; apply HW in Q; contradiction).
  assert (Q : works (Free Warped) = false) by (apply HW; reflexivity).
  unfold warp_perspective_cuda, warp_try, cuda_malloc. rewrite EL, N1, N2. unfold andthen, check, pure, cuda_free, catch_free, holds_pointer.
  rewrite !(T (Malloc _)), !(T Copy_in), !(T Memset), !(T Launch), !(T Synchronize), !(T Copy_out), !(T (Free Source)), Q by discriminate.
  pose proof (T (Free_in_catch Source) ltac:(discriminate)) as HS. pose proof (T (Free_in_catch Warped) ltac:(discriminate)) as HV. answers. reflexivity.
Qed.
Print Assumptions C168_twice.

(** The copy back fails: an exception, both buffers are freed once. *)
Example C168_case : warp_perspective_cuda millionth (fun c => match c with Copy_out => false | _ => true end) threads (bytes 6 6 (fun x _ => 10 * Z.of_nat x)%Z) (moves (1 # 2) 2) 6 2 =
  (mkDevice [] [Warped; Source] [Warped; Source], Throw RuntimeError).
Proof. vm_compute. reflexivity. Qed.
Example C168_twice_case : fst (warp_perspective_cuda millionth (fun c => match c with Free Warped => false | _ => true end) threads (bytes 6 6 (fun x _ => 10 * Z.of_nat x)%Z) (moves (1 # 2) 2) 6 2) =
  mkDevice [] [Warped; Source] [Warped; Source; Warped; Source].
Proof. vm_compute. reflexivity. Qed.

(** ** C169  the device and the processor *)
(** the version without a device, with its interpolator of bytes *)
Definition on_cpu (im : image Z) (x y : Qcfield) : res Z := bicubic_interpolate inject_Z (fin_int 0 255) 0%Z im (this (x : Qc)) (this (y : Qc)).

(** where both read the same value: on a pixel, in the interior, off the source; or both denominators too small *)
Definition same_reading (eps eps' : Qc) (m : nat -> nat -> Qcfield) (w h x y : nat) : Prop :=
  let W := along m 2 x y in
  let X := this (along m 0 x y / W)%Qc in let Y := this (along m 1 x y / W)%Qc in
  (Qabs (this W) < this eps' \/
   this eps < Qabs (this W) /\
     (interior w h X Y \/ (X < 0 \/ qn w <= X \/ Y < 0 \/ qn h <= Y) \/ exists i j, (i < w)%nat /\ (j < h)%nat /\ X == qn i /\ Y == qn j))%Q.

Lemma this_qn (q : Qc) i : (this q == qn i)%Q -> this q = qn i.
Proof.
  intros E. rewrite <- (canon q). rewrite (Qred_complete _ _ E). apply Qred_identity. cbn [qn inject_Z Qnum Qden]. apply Z.gcd_1_r.
Qed.

Theorem C169_agree : forall eps eps' works order sg src w h f H m ow oh,
  Repr src w h f -> 0 < w -> 0 < h -> (forall i j, i < w -> j < h -> byte (f i j)) ->
  fits_int w h -> canvas_ok ow oh -> MRepr H 3 3 m -> (forall c, works c = true) -> launch_ok order -> sched_ok sg ->
  (0 <= this eps' <= this eps)%Q ->
  exists a b p q, snd (warp_perspective_cuda eps works order src H ow oh) = Ok a /\ Repr a ow oh p /\
    warp_perspective Qcfield eps' 0%Z on_cpu sg src H ow oh = Ok b /\ Repr b ow oh q /\
    forall x y, x < ow -> y < oh -> same_reading eps eps' m w h x y -> p x y = q x y.
Proof.
  intros eps eps' works order sg src w h f H m ow oh R Pw Ph B F C M HW HO Hs He. pose proof (proj2 (proj2 F)) as F3.
  destruct (launch_result eps order src w h f H m ow oh R F C M HO) as (out & c & Ec & E & Ro).
  set (v := fun X Y : Qc => match on_cpu src X Y with Ok v => v | _ => 0%Z end).
  assert (Hv : forall X Y, on_cpu src X Y = Ok (v X Y)).
  { intros X Y. unfold v, on_cpu. destruct (C48_total inject_Z (fin_int 0 255) 0%Z src w h f (this X) (this Y) R) as (_ & u & ->). reflexivity. }
  destruct (C81_warp Qcfield Z eps' 0%Z on_cpu sg src H m ow oh v Hs M Hv) as (b & Eb & Rb).
  exists (mkImage [ow; oh] out), b. eexists. eexists. split; [|split; [exact Ro|split; [exact Eb|split; [exact Rb|]]]].
  - unfold warp_perspective_cuda, warp_try, andthen, cuda_malloc, cuda_free, check, pure, launch.
    rewrite !HW, (get_width_Repr _ _ _ _ R), (get_height_Repr _ _ _ _ R), Ec, (launchable_ok ow oh C). cbn [bind negb]. rewrite E. reflexivity.
  - intros x y _ _ S. cbv beta zeta.
    change (fadd (fadd (fmul (m 2 0) (fnat Qcfield x)) (fmul (m 2 1) (fnat Qcfield y))) (m 2 2)) with (along m 2 x y).
    change (fadd (fadd (fmul (m 1 0) (fnat Qcfield x)) (fmul (m 1 1) (fnat Qcfield y))) (m 1 2)) with (along m 1 x y).
    change (fadd (fadd (fmul (m 0 0) (fnat Qcfield x)) (fmul (m 0 1) (fnat Qcfield y))) (m 0 2)) with (along m 0 x y).
    change (@fdiv Qcfield) with Qcdiv.
    destruct S as [S|[S P]].
    + destruct (hits eps w h m x y) eqn:HH; [apply hits_visible in HH; destruct HH as [HH _]; cbv zeta in S, HH; lra|].
      destruct (@fltb Qcfield (@fabs Qcfield (along m 2 x y)) eps') eqn:L; auto.
      apply qcltb_nle in L. rewrite this_fabs in L. cbv zeta in S. lra.
    + destruct (@fltb Qcfield (@fabs Qcfield (along m 2 x y)) eps') eqn:L.
      { apply qcltb_true in L. rewrite this_fabs in L. lra. }
      cbv zeta in P. set (X := (along m 0 x y / along m 2 x y)%Qc) in *. set (Y := (along m 1 x y / along m 2 x y)%Qc) in *.
      assert (VV : on_cpu src X Y = Ok (v X Y)) by apply Hv. unfold on_cpu in VV.
      assert (HHP : (0 <= this X < qn w /\ 0 <= this Y < qn h)%Q -> hits eps w h m x y = true).
      { intros Q. apply hits_visible. split; [exact S|]. fold X Y. exact Q. }
      destruct P as [P|[P|(i & j & Hi & Hj & Ei & Ej)]].
      * rewrite HHP by (unfold interior in P; repeat split; lra).
        pose proof (value_ok eps src w h f R (proj2 (proj2 F)) m x y (HHP ltac:(unfold interior in P; repeat split; lra))) as V.
        unfold sx, sy in V. change (row_at m) with (along m) in V. fold X Y in V.
        rewrite (dev_deep src w h f) in V by auto. congruence.
      * destruct (hits eps w h m x y) eqn:HH; [apply hits_visible in HH; destruct HH as [_ HH]; fold X Y in HH; lra|].
        assert (NI : ~ inside w h (this X) (this Y)) by (unfold inside; lra).
        assert (ND : ~ deep w h (this X) (this Y)) by (unfold deep; lra).
        rewrite (bicubic_border inject_Z (fin_int 0 255) 0%Z src w h f _ _ R ND), (bilinear_outside inject_Z (fin_int 0 255) 0%Z src w h f _ _ R NI) in VV. congruence.
      * assert (Q : (0 <= this X < qn w /\ 0 <= this Y < qn h)%Q).
        { assert (qn i < qn w)%Q by (apply qn_lt; auto). assert (qn j < qn h)%Q by (apply qn_lt; auto).
          pose proof (qn_nonneg i). pose proof (qn_nonneg j). repeat split; lra. }
        rewrite (HHP Q). pose proof (value_ok eps src w h f R (proj2 (proj2 F)) m x y (HHP Q)) as V.
        unfold sx, sy in V. change (row_at m) with (along m) in V. fold X Y in V.
        destruct (deep_dec w h (this X) (this Y)) as [D|D].
        -- rewrite (dev_deep src w h f) in V by auto. congruence.
        -- rewrite (dev_near src w h f) in V by (auto; apply Q). assert (V2 : value src w h m x y = f (nearest_px w (this X)) (nearest_px h (this Y))) by congruence.
           rewrite V2, (this_qn X i Ei), (this_qn Y j Ej). clear V V2. rewrite (this_qn X i Ei), (this_qn Y j Ej) in VV.
           pose proof (C48_bicubic_sample_int 0 255 src w h f i j R Hi Hj (B i j Hi Hj)) as E1. unfold bicubic_z in *.
           assert (V3 : v X Y = f i j) by congruence. rewrite V3. clear VV V3.
           destruct (nearest_ok w (qn i) Pw ltac:(rewrite <- (this_qn X i Ei); apply Q)) as [A1 A2].
           destruct (nearest_ok h (qn j) Ph ltac:(rewrite <- (this_qn Y j Ej); apply Q)) as [A3 A4].
           assert (NE : forall n k a, a < n -> (forall l, l < n -> (Qabs (qn a - qn k) <= Qabs (qn a - qn l))%Q) -> k = a).
           { intros n k a Ha Hl. specialize (Hl a Ha). rewrite (Qabs_pos (qn a - qn a)) in Hl by lra.
             assert (qn a - qn k == 0)%Q. { apply Qle_antisym; [pose proof (Qle_Qabs (qn a - qn k)); lra|]. pose proof (Qle_Qabs (- (qn a - qn k))) as G. rewrite Qabs_opp in G. lra. }
             assert (qn k <= qn a)%Q by lra. assert (qn a <= qn k)%Q by lra. apply (proj1 (qn_le _ _)) in H1, H2. lia. }
           rewrite (NE w _ i Hi (fun l Hl => proj1 (A2 l Hl))), (NE h _ j Hj (fun l Hl => proj1 (A4 l Hl))). reflexivity.
Qed.
Print Assumptions C169_agree.

(** Near the edges the device takes the nearest pixel and the processor interpolates: half a pixel to the right on a ramp. *)
Theorem C169_border_refuted : exists src H a b,
  snd (warp_perspective_cuda millionth all_work threads src H 6 1) = Ok a /\ warp_perspective Qcfield tiny 0%Z on_cpu grid src H 6 1 = Ok b /\
  pix a = [10; 20; 30; 40; 50; 50]%Z /\ pix b = [5; 15; 25; 35; 45; 0]%Z.
Proof.
  exists (bytes 6 1 (fun x _ => 10 * Z.of_nat x)%Z), (moves (1 # 2) 0). eexists. eexists.
  split; [vm_compute; reflexivity|]. split; [vm_compute; reflexivity|]. split; vm_compute; reflexivity.
Qed.
Print Assumptions C169_border_refuted.

(** A homography may be scaled; the identity divided by ten million is black on the device. *)
Theorem C169_scale_refuted : exists src H a b,
  snd (warp_perspective_cuda millionth all_work threads src H 2 1) = Ok a /\ warp_perspective Qcfield tiny 0%Z on_cpu grid src H 2 1 = Ok b /\
  pix a = [0; 0]%Z /\ pix b = [30; 40]%Z.
Proof.
  set (e := Q2Qc (1 # 10000000)). set (o := Q2Qc 0).
  exists (bytes 2 1 (fun x _ => 30 + 10 * Z.of_nat x)%Z), (mkMatrix 3 3 [e; o; o; o; e; o; o; o; e] : matrix Qcfield). eexists. eexists.
  split; [vm_compute; reflexivity|]. split; [vm_compute; reflexivity|]. split; vm_compute; reflexivity.
Qed.
Print Assumptions C169_scale_refuted.

(** One pixel to the right: every position is on a pixel or off the source, and the two agree everywhere. *)
Example C169_case : exists a, snd (warp_perspective_cuda millionth all_work threads (bytes 6 1 (fun x _ => 10 * Z.of_nat x)%Z) (moves 1 0) 6 1) = Ok a /\
  warp_perspective Qcfield tiny 0%Z on_cpu grid (bytes 6 1 (fun x _ => 10 * Z.of_nat x)%Z) (moves 1 0) 6 1 = Ok a /\ pix a = [10; 20; 30; 40; 50; 0]%Z.
Proof. eexists. split; [vm_compute; reflexivity|]. split; vm_compute; reflexivity. Qed.

(** ** C170  create_stitched_image_cuda *)
(** the position (X, Y) of the second picture is read for the pixel (x, y) of the canvas: it is f(x, y) + t *)
Definition seen_at (eps : Qc) (f : nat -> nat -> Qcfield) (w2 h2 : nat) (min_x min_y : Qc) (x y : nat) (X Y : Q) : Prop :=
  let W := den f (fnat Qcfield x) (fnat Qcfield y) in
  let P := src f (fnat Qcfield x) (fnat Qcfield y) in
  (this eps < Qabs (this W) /\ X == this (fst P) - this min_x /\ Y == this (snd P) - this min_y /\ 0 <= X < qn w2 /\ 0 <= Y < qn h2)%Q.

Theorem C170_stitched : forall eps inv_eps oor s works order sg img1 img2 H_in w1 h1 w2 h2 p1 p2 sample f g min_x max_x min_y max_y,
  stitchable inv_eps rgb_bicubic img1 img2 H_in w1 h1 w2 h2 p1 p2 sample f g min_x max_x min_y max_y ->
  (forall i j, i < w2 -> j < h2 -> rgb (p2 i j)) -> fits_int w2 h2 -> canvas_ok (extent min_x max_x) (extent min_y max_y) ->
  (forall q, exists n, oor q = Ok n) -> (0 <= this eps)%Q ->
  (forall k c, works k c = true) -> (forall k, launch_ok (order k)) -> sched1_ok s -> sched_ok sg ->
  exists out warped, create_stitched_image_cuda eps inv_eps oor s works order sg img1 img2 H_in = Ok out /\
    Repr out (extent min_x max_x) (extent min_y max_y) (fun x y =>
      match stitched w1 h1 p1 (- min_x) (- min_y) x y (warped x y) with Some v => v | None => rgb0 end) /\
    forall x y, x < extent min_x max_x -> y < extent min_y max_y -> rgb (warped x y) /\
      (forall X Y, seen_at eps f w2 h2 min_x min_y x y X Y -> forall k, k < 3 -> sampled w2 h2 (fun i j => nth k (p2 i j) 0%Z) X Y (nth k (warped x y) 0%Z)) /\
      ((forall X Y, ~ seen_at eps f w2 h2 min_x min_y x y X Y) -> warped x y = [0; 0; 0]%Z).
Proof.
  intros eps inv_eps oor s works order sg img1 img2 H_in w1 h1 w2 h2 p1 p2 sample f g min_x max_x min_y max_y S B2 F2 C Ho He HW HO Hs Hg.
  destruct (stitchable_inverse _ _ _ _ _ _ _ _ _ _ _ _ _ _ _ _ _ _ S) as (H & EH & MG).
  destruct S as [s_first0 s_first_rgb0 s_second0 s_wide0 s_high0 s_w3 s_h3 s_sample0 s_eps0 s_matrix0 s_det0 s_inverse0 s_corners0 s_bounds0 s_width0 s_height0].
  destruct (bounds_facts w1 h1 w2 h2 g min_x max_x min_y max_y s_bounds0) as (A & B & C1 & D).
  destruct (translation_ok (- min_x)%Qc (- min_y)%Qc) as (T & ET & MT).
  destruct (mult3_ok Qcfield T H_in _ _ MT s_matrix0) as (HF & EF & MHF).
  set (m := mprod Qcfield (shift_fun Qcfield (- min_x)%Qc (- min_y)%Qc) f) in *.
  destruct (C167_rgb eps s works order img2 w2 h2 p2 HF m _ _ Hs s_second0 s_wide0 s_high0 B2 F2 C MHF HW HO) as (wim & pw & EW & RW & PW).
  set (ow := extent min_x max_x) in *. set (oh := extent min_y max_y) in *.

  assert (Q : forall x y, along m 2 x y = den f (fnat Qcfield x) (fnat Qcfield y) /\
    (this eps < Qabs (this (along m 2 x y)) ->
      this (along m 0 x y / along m 2 x y)%Qc == this (fst (src f (fnat Qcfield x) (fnat Qcfield y))) - this min_x /\
      this (along m 1 x y / along m 2 x y)%Qc == this (snd (src f (fnat Qcfield x) (fnat Qcfield y))) - this min_y)%Q).
  { intros x y. destruct (shift_lin Qcfield f (- min_x)%Qc (- min_y)%Qc (fnat Qcfield x) (fnat Qcfield y)) as (E0 & E1 & E2). fold m in E0, E1, E2.
    change (along m) with (fun r x y => lin Qcfield m r (fnat Qcfield x) (fnat Qcfield y)). cbv beta. split; [exact E2|].
    intros L. rewrite E2 in L. rewrite E0, E1, E2. change (@fadd Qcfield) with Qcplus. change (@fmul Qcfield) with Qcmult.
    unfold src, den. cbn [fst snd].
    assert (NZ : lin Qcfield f 2 (fnat Qcfield x) (fnat Qcfield y) <> Q2Qc 0).
    { intros E. rewrite E in L. change (Qabs (this (Q2Qc 0))) with 0%Q in L. lra. }
    rewrite !div_shift by exact NZ. rewrite !this_add, !this_opp. split; ring. }
  set (pw' := fun x y => if (x <? ow) && (y <? oh) then pw x y else rgb0).
  assert (EP : forall x y, x < ow -> y < oh -> pw' x y = pw x y).
  { intros x y Hx Hy. unfold pw'. rewrite (proj2 (Nat.ltb_lt x ow) Hx), (proj2 (Nat.ltb_lt y oh) Hy). reflexivity. }
  assert (RW' : Repr wim ow oh pw') by (eapply Repr_ext; [exact RW|]; intros; symmetry; apply EP; auto).
  assert (BW : forall i j, rgb (pw' i j)).
  { intros i j. unfold pw'. destruct (i <? ow) eqn:L1, (j <? oh) eqn:L2; cbn [andb].
    2-4: split; [reflexivity|]; repeat apply Forall_cons; try apply Forall_nil; unfold byte; lia.
    exact (proj1 (PW i j (proj1 (Nat.ltb_lt i ow) L1) (proj1 (Nat.ltb_lt j oh) L2))). }
  destruct (overlay_grid sg (fun x y out => let* o := stitch_pixel oor img1 wim w1 h1 (- min_x) (- min_y) x y in write_pixel out x y o) ow oh
      (fun x y => stitched w1 h1 p1 (- min_x) (- min_y) x y (pw' x y)) (image_sizes rgb0 [ow; oh]) (fun _ _ => rgb0) Hg (Repr_sizes rgb0 ow oh)) as (out & E & R).
  { intros x y st Hx Hy Ds L. eapply last_pixel. all: try exact s_bounds0. all: eauto. }
  exists out, pw. split; [|split].
  - unfold create_stitched_image_cuda. rewrite (mat_empty3 Qcfield H_in f s_matrix0), EH. cbn [bind].
    rewrite (mat_empty3 Qcfield H g MG).
    rewrite (get_width_Repr img2 w2 h2 p2), (get_height_Repr img2 w2 h2 p2), (get_width_Repr img1 w1 h1 p1), (get_height_Repr img1 w1 h1 p1) by auto.
    cbn [bind]. rewrite (canvas_bounds_ok oor H g) by auto. rewrite s_bounds0. cbn [bind].
    destruct (extent_ok eps inv_eps rgb_bicubic oor img2 w1 h1 w2 h2 p1 s_first_rgb0 sample s_sample0 s_wide0 s_high0 s_h3 min_x min_x max_x w1 A C1 s_width0) as [-> _].
    destruct (extent_ok eps inv_eps rgb_bicubic oor img2 w1 h1 w2 h2 p1 s_first_rgb0 sample s_sample0 s_wide0 s_high0 s_h3 min_x min_y max_y h1 B D s_height0) as [-> _].
    cbn [bind]. rewrite ET. cbn [bind]. rewrite EF. cbn [bind]. fold ow oh. rewrite EW. cbn [bind]. exact E.
  - eapply Repr_ext; [exact R|]. intros x y Hx Hy. cbv beta. rewrite EP by auto. reflexivity.
  - intros x y Hx Hy. destruct (PW x y Hx Hy) as (P1 & P2 & P3). destruct (Q x y) as [Q1 Q2]. split; [exact P1|]. split.
    + intros X Y (V1 & V2 & V3 & V4 & V5) k Hk. rewrite <- Q1 in V1. destruct (Q2 V1) as [Q3 Q4].
      assert (VV : visible eps m w2 h2 x y) by (split; [exact V1|]; rewrite Q3, Q4, <- V2, <- V3; auto).
      pose proof (P2 VV k Hk) as SS. eapply sampled_comp; [| |exact SS]; [rewrite Q3, V2|rewrite Q4, V3]; reflexivity.
    + intros N. apply P3. intros VV. destruct VV as (V1 & V2 & V3). destruct (Q2 V1) as [Q3 Q4].
      apply (N (this (along m 0 x y / along m 2 x y)%Qc) (this (along m 1 x y / along m 2 x y)%Qc)).
      unfold seen_at. cbv zeta. rewrite <- Q1. auto.
Qed.
Print Assumptions C170_stitched.

(** An empty or singular homography gives the empty picture. *)
Theorem C170_empty : forall eps inv_eps oor s works order sg img1 img2 H_in,
  fltb (@f0 Qcfield) inv_eps = true ->
  (mat_empty H_in = true \/ exists f, MRepr H_in 3 3 f /\ fltb (@fabs Qcfield (det3 Qcfield f)) inv_eps = true) ->
  create_stitched_image_cuda eps inv_eps oor s works order sg img1 img2 H_in = Ok (mkImage [] []).
Proof.
  intros eps inv_eps oor s works order sg img1 img2 H_in He [E|(f & M & Hd)]; unfold create_stitched_image_cuda.
  - rewrite E. auto.
  - rewrite (mat_empty3 Qcfield H_in f M). rewrite (proj1 (C43_inverse Qcfield inv_eps H_in f M He) Hd). cbn [bind]. auto.
Qed.
Print Assumptions C170_empty.

(** A stitched picture should read the second picture at f((x, y) - t), and the code reads it at f(x, y) + t: here x goes to x + 1/2 and
    the canvas starts at -1/2, so its pixel 1, which the first picture does not cover, is the pixel 1 of the second.  It is black. *)
Theorem C170_place_refuted : exists img1 img2 H_in,
  (src (fun i j => nth (3 * i + j) (LinModel.data H_in) (Q2Qc 0)) (fnat Qcfield 1 + Q2Qc (-1 # 2))%Qc (Q2Qc 0) = (fnat Qcfield 1, Q2Qc 0)) /\
  at_ img2 [1; 0] = Ok (grey 30) /\
  forall oor, exists out, create_stitched_image_cuda millionth threshold oor seq0 (fun _ => all_work) (fun _ => threads) grid img1 img2 H_in = Ok out /\
    dims out = [2; 1] /\ at_ out [1; 0] = Ok (grey 0).
Proof.
  exists (row_image [grey 10]), (row_image [grey 20; grey 30]), (shift_matrix (qc 1 2) (qc 0 1)).
  split; [vm_compute; reflexivity|]. split; [vm_compute; reflexivity|].
  intros oor. eexists. split; [vm_compute; reflexivity|]. split; vm_compute; reflexivity.
Qed.
Print Assumptions C170_place_refuted.

(** The second picture starts one pixel to the right of the first. *)
Example C170_case : forall oor, create_stitched_image_cuda millionth threshold oor seq0 (fun _ => all_work) (fun _ => threads) grid
    (row_image [grey 10; grey 20]) (row_image [grey 100; grey 40]) (shift_matrix (qc (-1) 1) (qc 0 1)) =
  Ok (mkImage [2; 1] [grey 10; grey 60]).
Proof. intros oor. vm_compute. reflexivity. Qed.
