(** PropBmp.v - property theorems C37-C39, C73, C74 (binary image files).

    Pixels are [R; G; B] lists of bytes.  [junk n] is the content of freshly allocated memory of n cells, [alloc n]
    whether an allocation of n bytes succeeds.  [stored file w x r c] (BmpProofs) is the specification of the
    reader: channel c of column x of the r-th row stored in the file. *)
From Coq Require Import ZifyBool ZifyNat.
From Verif Require Import Base ImageModel ImageFacts PixelProofs BmpModel BmpProofs.
Open Scope nat_scope.
Ltac Zify.zify_post_hook ::= Z.div_mod_to_equations.

Definition rgb_image (im : image (list Z)) (w h : nat) : Prop :=
  dims im = [w; h] /\ length (pix im) = w * h /\
  Forall (fun px => length px = 3 /\ Forall (fun b => (0 <= b < 256)%Z) px) (pix im).

(** the pixel at column x, row y *)
Definition px_at (im : image (list Z)) (w x y : nat) : list Z := nth (y * w + x) (pix im) [].

Definition fresh {A} (junk : nat -> list A) : Prop := forall n, length (junk n) = n.

Lemma rgb_Repr im w h : rgb_image im w h ->
  Repr im w h (px_at im w) /\ forall x y, x < w -> y < h -> length (px_at im w x y) = 3 /\ Forall is_byte (px_at im w x y).
Proof.
  intros (D & L & F); split.
  - repeat split; auto; intros x y Hx Hy; apply nth_error_nth'; nia.
  - intros x y Hx Hy; rewrite Forall_forall in F; apply F, nth_In; nia.
Qed.

Lemma Repr_eq {A} (a b : image A) w h f : Repr a w h f -> Repr b w h f -> a = b.
Proof.
  intros (Da & La & Ha) (Db & Lb & Hb); destruct a as [da pa], b as [db pb]; cbn [dims pix] in *; subst.
  f_equal; apply nth_error_ext_len; [congruence|]; intros k Hk.
  destruct (Nat.eq_dec w 0) as [Ew|Nw]; [subst; lia|].
  pose proof (Nat.div_mod k w Nw) as Dk; pose proof (Nat.mod_upper_bound k w Nw).
  assert (k / w < h) by (apply Nat.div_lt_upper_bound; lia).
  rewrite Dk, (Nat.mul_comm w), Ha, Hb by auto; reflexivity.
Qed.

(** ** C37 *)
Theorem C37_round_trip_partial :
  forall alloc junk junk' im w h,
  rgb_image im w h -> fresh junk -> fresh junk' -> (forall n, alloc n = true) ->
  (Z.of_nat (stride24 w) < 2 ^ 31)%Z -> (Z.of_nat h < 2 ^ 31)%Z -> (Z.of_nat (stride24 w * h) mod 2 ^ 32 < 2 ^ 31)%Z ->
  exists file, bmp_write junk im = Ok file /\ bmp_read alloc junk' file = Ok im.
Proof.
  intros alloc junk junk' im w h R HJ HJ' HA Bx By B; apply rgb_Repr in R as [R H3].
  rewrite <- row_bytes_stride in Bx, B.
  destruct (bmp_round_trip alloc junk junk' im w h _ R HA HJ HJ' H3 B Bx By) as (file & im' & E & E' & R').
  exists file; split; auto; rewrite E'; f_equal; eapply Repr_eq; eauto.
Qed.
Print Assumptions C37_round_trip_partial.

(** What is missing: images whose pixel data has 2^31 bytes or more modulo 2^32, for instance 2 to 4 GiB.  Writing them
    succeeds, reading the file back overflows the int counter of a loop. *)
Theorem C37_two_gib_refuted :
  forall alloc junk junk' im w h,
  rgb_image im w h -> fresh junk ->
  (Z.of_nat (stride24 w) < 2 ^ 31)%Z -> (Z.of_nat h < 2 ^ 31)%Z -> (2 ^ 31 <= Z.of_nat (stride24 w * h) mod 2 ^ 32)%Z ->
  exists file, bmp_write junk im = Ok file /\ bmp_read alloc junk' file = UB.
Proof.
  intros alloc junk junk' im w h R HJ Bx By B; apply rgb_Repr in R as [R H3].
  rewrite <- row_bytes_stride in Bx, B.
  destruct (bmp_write_spec junk im w h _ R HJ) as (raw & E & L & _); auto.
  { intros x y Hx Hy; apply H3; auto. }
  eexists; split; [exact E|].
  match goal with |- bmp_read _ _ ?f = _ => set (file := f) end.
  assert (Wx : (0 <= Z.of_nat w < 2 ^ 31)%Z) by lia.
  assert (EX : s32 (word file 18) = Z.of_nat w) by (unfold file; rewrite header_word_18 by lia; apply s32_small; lia).
  assert (EY : s32 (word file 22) = Z.of_nat h) by (unfold file; rewrite header_word_22 by lia; apply s32_small; lia).
  pose proof (Z.mod_le (Z.of_nat (row_bytes w * h)) (2 ^ 32)) as Le.
  assert (P : row_bytes w * h <> 0) by lia.
  assert (Pw : w <> 0) by (intros ->; unfold filling in P; cbn in P; lia).
  assert (Ph : h <> 0) by (intros ->; lia).
  rewrite bmp_read_is_wide; rewrite ?EX, ?EY, ?Nat2Z.id; try (unfold file; rewrite app_length, header_length; lia); try lia.
  apply bmp_read_wide_gap with (xs := w) (ys := h); auto; lia.
Qed.
Print Assumptions C37_two_gib_refuted.

Definition im_3x2 : image (list Z) :=
  mkImage [3; 2] [[1; 2; 3]; [4; 5; 6]; [7; 8; 9]; [255; 0; 10]; [20; 30; 40]; [50; 60; 255]]%Z.

Example C37_case : rgb_image im_3x2 3 2 /\
  (let* file := bmp_write (fun n => repeat 7%Z n) im_3x2 in bmp_read (fun _ => true) (fun n => repeat 9%Z n) file) = Ok im_3x2.
Proof.
  split; [|reflexivity].
  split; [reflexivity|]; split; [reflexivity|].
  unfold im_3x2; cbn [pix]; repeat constructor; lia.
Qed.

(** ** C38 *)
Theorem C38_row_padding :
  forall junk im w h,
  rgb_image im w h -> fresh junk -> (Z.of_nat (3 * w + 3) < 2 ^ 31)%Z -> (Z.of_nat h < 2 ^ 31)%Z ->
  exists file row, bmp_write junk im = Ok file /\
    row mod 4 = 0 /\ 3 * w <= row <= 3 * w + 3 /\ length file = 54 + row * h /\
    (forall x y c, x < w -> y < h -> c < 3 -> nth_error file (54 + (y * row + (3 * x + (2 - c)))) = nth_error (px_at im w x y) c) /\
    (forall y j, y < h -> 3 * w <= j < row -> nth_error file (54 + (y * row + j)) = Some 0%Z).
Proof.
  intros junk im w h R HJ Bx By; apply rgb_Repr in R as [R H3].
  destruct (bmp_write_spec junk im w h _ R HJ) as (raw & E & L & Hp & Hf); auto.
  { intros x y Hx Hy; apply H3; auto. }
  { unfold filling; lia. }
  assert (Sk : forall fs xs ys k, nth_error (bmp_header fs xs ys ++ raw) (54 + k) = nth_error raw k).
  { intros; rewrite nth_error_app2 by (rewrite header_length; lia); rewrite header_length; f_equal; lia. }
  eexists; exists (row_bytes w); split; [exact E|].
  split; [unfold filling; lia|]; split; [unfold filling; lia|].
  split; [rewrite app_length, header_length, L; reflexivity|]; split.
  - intros x y c Hx Hy Hc; rewrite Sk, <- addr_row, Hp by auto; destruct (H3 x y Hx Hy) as [L3 _].
    symmetry; apply nth_error_nth'; lia.
  - intros y j Hy Hj; rewrite Sk; apply Hf; auto.
Qed.
Print Assumptions C38_row_padding.

Example C38_case : (let* file := bmp_write (fun n => repeat 7%Z n) im_3x2 in Ok (skipn 54 file)) =
  Ok [3; 2; 1; 6; 5; 4; 9; 8; 7; 0; 0; 0; 10; 0; 255; 40; 30; 20; 255; 60; 50; 0; 0; 0]%Z.
Proof. reflexivity. Qed.

(** ** C39 *)
(** Every file that has the width and height fields, for a non-negative width and less than 2 GiB of pixel data: no stray
    access, and every pixel is the one the format describes.  Rows of a negative height are stored top row first. *)
Theorem C39_reader_partial :
  forall alloc junk file,
  Forall (fun b => (0 <= b < 256)%Z) file -> 26 <= length file -> (forall n, alloc n = true) -> fresh junk ->
  let X := s32 (word file 18) in let Y := s32 (word file 22) in
  let w := Z.to_nat X in let h := Z.to_nat (Z.abs Y) in
  (0 <= X)%Z -> (Y <> -1)%Z -> (Y <> - 2 ^ 31)%Z ->
  (Z.of_nat (stride24 w) < 2 ^ 31)%Z -> (Z.of_nat (stride24 w * h) < 2 ^ 31)%Z ->
  exists im, bmp_read alloc junk file = Ok im /\
    Repr im w h (fun x y => let r := if (Y <? 0)%Z then h - 1 - y else y in
                   [stored file w x r 0; stored file w x r 1; stored file w x r 2]).
Proof.
  intros alloc junk file F L HA HJ X Y w h PX N1 N2 Br B.
  rewrite <- row_bytes_stride in Br, B.
  apply bmp_read_spec with (X := X); auto.
Qed.
Print Assumptions C39_reader_partial.

(** Pixel data of any size, 24 bits, bottom row first: the bytes the file has arrive where the format says, unless the
    size modulo 2^32 is 2^31 or more. *)
Theorem C39_any_size :
  forall alloc junk file,
  Forall (fun b => (0 <= b < 256)%Z) file -> 54 <= length file -> (forall n, alloc n = true) -> fresh junk ->
  (nth 28 file 0 + nth 29 file 0 * 2 ^ 8 = 24)%Z ->
  let X := s32 (word file 18) in let Y := s32 (word file 22) in
  let w := Z.to_nat X in let h := Z.to_nat Y in
  (0 <= X)%Z -> (0 <= Y)%Z -> (Z.of_nat (stride24 w) < 2 ^ 31)%Z -> (Z.of_nat (stride24 w * h) mod 2 ^ 32 < 2 ^ 31)%Z ->
  exists im f, bmp_read alloc junk file = Ok im /\ Repr im w h f /\
    forall x y c, x < w -> y < h -> c < 3 ->
      let j := Z.to_nat (word file 10) + (y * stride24 w + 3 * x + (2 - c)) in
      (j < length file -> nth_error (f x y) c = nth_error file j) /\
      (length file <= j -> (Z.of_nat (y * stride24 w + 3 * x + (2 - c)) < Z.of_nat (stride24 w * h) mod 2 ^ 32)%Z ->
        nth_error (f x y) c = Some 255%Z).
Proof.
  intros alloc junk file F L HA HJ B24 X Y w h PX PY Br B.
  pose proof (s32_range (word file 18)) as RX; pose proof (s32_range (word file 22)) as RY; fold X in RX; fold Y in RY.
  rewrite <- row_bytes_stride in Br, B |- *.
  destruct (Z.lt_ge_cases (Z.of_nat (row_bytes w * h)) (2 ^ 31)) as [Sm|Lg].
  - destruct (bmp_read_spec alloc junk file X Y w h) as (im & E & R); auto; try lia.
    eexists; eexists; split; [exact E|]; split; [exact R|]; intros x y c Hx Hy Hc j; cbv beta zeta.
    destruct (Z.ltb_spec Y 0); [lia|].
    assert (S : forall c, stored file w x y c = nth (Z.to_nat (word file 10) + (y * row_bytes w + 3 * x + (2 - c))) file 255%Z).
    { intros c0; unfold stored; destruct (Nat.ltb_spec (length file) 54); [lia|].
      rewrite B24, Z.eqb_refl, row_bytes_stride; reflexivity. }
    assert (N : nth_error [stored file w x y 0; stored file w x y 1; stored file w x y 2] c = Some (nth j file 255%Z)).
    { unfold j; rewrite <- S; destruct c as [|[|[|c]]]; [reflexivity..|lia]. }
    rewrite N; split; intros Hj; [symmetry; apply nth_error_nth'; auto | intros _; rewrite nth_overflow by auto; reflexivity].
  - destruct (bmp_read_wide_24 alloc junk file X Y w h) as (im & E & R); auto; try lia.
    eexists; eexists; split; [|split; [exact R|]].
    + rewrite bmp_read_is_wide; fold X Y w; [exact E|lia..|].
      right; right; replace (Z.to_nat (Z.abs Y)) with h by (unfold h; lia); auto.
    + intros x y c Hx Hy Hc j; cbv beta.
      rewrite nth_error_map; replace (nth_error [0; 1; 2] c) with (Some c) by (destruct c as [|[|[|c]]]; [reflexivity..|lia]).
      cbn [option_map]; unfold delivered; cbv zeta; rewrite addr_row.
      replace (y * row_bytes w + (3 * x + (2 - c))) with (y * row_bytes w + 3 * x + (2 - c)) by lia; fold j.
      split; intros Hj.
      * rewrite (proj2 (Nat.ltb_lt _ _)) by auto; symmetry; apply nth_error_nth'; auto.
      * intros Hk; rewrite (proj2 (Nat.ltb_ge _ _)) by auto; rewrite (proj2 (Z.ltb_lt _ _)) by auto; reflexivity.
Qed.
Print Assumptions C39_any_size.

(** files whose pixel data has 2 to 4 GiB (modulo 4 GiB), whatever their depth *)
Theorem C39_two_gib_refuted :
  forall alloc junk file, 26 <= length file ->
  let X := s32 (word file 18) in let Y := s32 (word file 22) in
  let w := Z.to_nat X in let h := Z.to_nat (Z.abs Y) in
  (0 <= X)%Z -> (Y <> -1)%Z -> (Z.of_nat (stride24 w) < 2 ^ 31)%Z -> (2 ^ 31 <= Z.of_nat (stride24 w * h) mod 2 ^ 32)%Z ->
  bmp_read alloc junk file = UB.
Proof.
  intros alloc junk file L X Y w h PX NY Br B; rewrite <- row_bytes_stride in Br, B.
  pose proof (s32_range (word file 18)) as RX; fold X in RX.
  pose proof (Z.mod_le (Z.of_nat (row_bytes w * h)) (2 ^ 32)) as Le.
  assert (P : row_bytes w * h <> 0) by lia.
  assert (Pw : w <> 0) by (intros E; rewrite E in P; unfold filling in P; cbn in P; lia).
  assert (Ph : h <> 0) by (intros E; rewrite E in P; lia).
  destruct (Z.eq_dec Y (- 2 ^ 31)) as [Em|Nm].
  - unfold bmp_read; rewrite !le32_word by lia; cbn [bind]; fold X Y.
    destruct (Z.eqb_spec X (-1)); [lia|]; destruct (Z.eqb_spec Y (-1)); [lia|]; cbn [orb].
    rewrite Em; reflexivity.
  - rewrite bmp_read_is_wide; fold X Y w h; try lia.
    apply bmp_read_wide_gap with (xs := w) (ys := h); auto; subst w h; lia.
Qed.
Print Assumptions C39_two_gib_refuted.

(** 24-bit files with rows of 2 GiB and more overflow int, whatever their height *)
Theorem C39_long_rows_refuted :
  forall junk file, 54 <= length file -> (nth 28 file 0 + nth 29 file 0 * 2 ^ 8 = 24)%Z ->
  let X := s32 (word file 18) in let Y := s32 (word file 22) in
  (0 <= X)%Z -> (Y <> -1)%Z -> (2 ^ 31 <= Z.of_nat (stride24 (Z.to_nat X)))%Z ->
  bmp_read (fun _ => true) junk file = UB.
Proof.
  intros junk file L B24 X Y PX NY B; rewrite <- row_bytes_stride in B.
  pose proof (s32_range (word file 18)) as RX; fold X in RX.
  destruct (Z.eq_dec Y (- 2 ^ 31)) as [Em|Nm].
  - unfold bmp_read; rewrite !le32_word by lia; cbn [bind]; fold X Y.
    destruct (Z.eqb_spec X (-1)); [lia|]; destruct (Z.eqb_spec Y (-1)); [lia|]; cbn [orb].
    rewrite Em; reflexivity.
  - rewrite bmp_read_is_wide; fold X Y; try lia.
    unfold bmp_read_wide; cbn [negb].
    match goal with |- (if ?b then _ else _) = _ => destruct b end; [reflexivity|].
    unfold bmp_read_detail_wide; destruct (Nat.ltb_spec (length file) 54); [lia|].
    rewrite !(vget_nth_d _ _ 0%Z) by lia; cbn [bind]; rewrite (le32_word file 10) by lia; cbn [bind].
    rewrite B24, Z.eqb_refl.
    replace (u32 X) with X by (unfold u32; rewrite Z.mod_small; lia).
    rewrite (proj2 (Z.leb_le _ _)) by lia; rewrite orb_true_r; reflexivity.
Qed.
Print Assumptions C39_long_rows_refuted.

(** A negative width other than -1 in a 24-bit file: the reader asks for far more bytes than its buffer has. *)
Theorem C39_negative_width_refuted :
  forall junk file, 54 <= length file -> fresh junk -> (nth 28 file 0 + nth 29 file 0 * 2 ^ 8 = 24)%Z ->
  let X := s32 (word file 18) in let Y := s32 (word file 22) in
  (X < -1)%Z -> (Y <> -1)%Z -> (Y <> 0)%Z ->
  bmp_read (fun _ => true) junk file = UB.
Proof.
  intros junk file L HJ B24 X Y PX NY NY0.
  pose proof (s32_range (word file 18)) as RX; fold X in RX; pose proof (s32_range (word file 22)) as RY; fold Y in RY.
  destruct (Z.eq_dec Y (- 2 ^ 31)) as [Em|Nm].
  - unfold bmp_read; rewrite !le32_word by lia; cbn [bind]; fold X Y.
    destruct (Z.eqb_spec X (-1)); [lia|]; destruct (Z.eqb_spec Y (-1)); [lia|]; cbn [orb].
    rewrite Em; reflexivity.
  - rewrite bmp_read_is_wide; fold X Y; try lia.
    unfold bmp_read_wide; cbn [negb].
    match goal with |- (if ?b then _ else _) = _ => destruct b end; [reflexivity|].
    unfold bmp_read_detail_wide; destruct (Nat.ltb_spec (length file) 54); [lia|].
    rewrite !(vget_nth_d _ _ 0%Z) by lia; cbn [bind]; rewrite (le32_word file 10) by lia; cbn [bind].
    rewrite B24, Z.eqb_refl.
    set (xu := Z.to_nat (u32 X)); set (ys := Z.to_nat (Z.abs Y)); set (f := filling 4 xu).
    match goal with |- context [if ?b then UB else _] => destruct b eqn:Eb end; [reflexivity|].
    match goal with |- context [if ?b then UB else _] => destruct b eqn:Ec end; [reflexivity|]; exfalso.
    apply orb_false_iff in Eb as [Eb _]; apply Z.ltb_ge in Eb; apply Nat.ltb_ge in Ec; rewrite app_length, repeat_length, skipn_length, HJ in Ec.
    assert (Bf : f < 4) by (unfold f, filling; apply Nat.mod_upper_bound; lia).
    pose proof (wrap32_Z (3 * xu + f)) as W; pose proof (wrap32_le (wrap32 (3 * xu + f) * ys)) as Wl.
    pose proof (Z.mod_pos_bound (Z.of_nat (3 * xu + f)) (2 ^ 32) ltac:(lia)) as Wb.
    assert (Hys : (1 <= Z.of_nat ys <= 2 ^ 31)%Z) by (unfold ys; lia).
    assert (Hn : (Z.of_nat (wrap32 (3 * xu + f) * ys) < 2 ^ 32 * 2 ^ 31)%Z).
    { rewrite Nat2Z.inj_mul; apply Z.le_lt_trans with (Z.of_nat (wrap32 (3 * xu + f)) * 2 ^ 31)%Z;
        [apply Z.mul_le_mono_nonneg_l; lia | apply Z.mul_lt_mono_pos_r; lia]. }
    set (nn := wrap32 (3 * xu + f) * ys) in *.
    assert (M : (((3 * X + Z.of_nat f) * Z.of_nat ys) mod 2 ^ 64 = (3 * X + Z.of_nat f) * Z.of_nat ys + 2 ^ 64)%Z).
    { symmetry; apply Z.mod_unique with (q := (-1)%Z); [left; split|lia].
      - assert (((- 2 ^ 31) * 2 ^ 31 <= (3 * X + Z.of_nat f) * Z.of_nat ys)%Z); [|lia].
        apply Z.le_trans with ((- 2 ^ 31) * Z.of_nat ys)%Z; [apply Z.mul_le_mono_nonpos_l; lia | apply Z.mul_le_mono_nonneg_r; lia].
      - assert (((3 * X + Z.of_nat f) * Z.of_nat ys < 0)%Z) by (apply Z.mul_neg_pos; lia); lia. }
    rewrite M in Ec.
    assert (((- 2 ^ 31) * 2 ^ 31 <= (3 * X + Z.of_nat f) * Z.of_nat ys)%Z).
    { apply Z.le_trans with ((- 2 ^ 31) * Z.of_nat ys)%Z; [apply Z.mul_le_mono_nonpos_l; lia | apply Z.mul_le_mono_nonneg_r; lia]. }
    lia.
Qed.
Print Assumptions C39_negative_width_refuted.

(** When the memory cannot be had, the same file ends in an exception. *)
Theorem C39_negative_width :
  forall junk file, 26 <= length file ->
  let X := s32 (word file 18) in let Y := s32 (word file 22) in
  (X < -1)%Z -> (Y <> -1)%Z -> (Y <> 0)%Z -> (Y <> - 2 ^ 31)%Z ->
  bmp_read (fun _ => false) junk file = Throw LogicError.
Proof.
  intros junk file L X Y PX NY NY0 NM; rewrite bmp_read_is_wide; fold X Y; try lia.
  unfold bmp_read_wide, raw_image_to_array_wide; cbn [negb].
  rewrite (proj2 (Z.ltb_lt _ _)) by lia; rewrite (proj2 (Nat.eqb_neq _ _)) by lia; reflexivity.
Qed.
Print Assumptions C39_negative_width.

(** a width or height field of -1 is reported as an empty image *)
Theorem C39_rejected :
  forall alloc junk file, 26 <= length file ->
  (s32 (word file 18) = -1)%Z \/ (s32 (word file 22) = -1)%Z ->
  exists im, bmp_read alloc junk file = Ok im /\ dims im = [0; 0] /\ pix im = [].
Proof.
  intros alloc junk file L H; unfold bmp_read; rewrite !le32_word by lia; cbn [bind].
  replace ((s32 (word file 18) =? -1) || (s32 (word file 22) =? -1))%Z with true.
  - apply raw_image_to_array_empty.
  - destruct (Z.eqb_spec (s32 (word file 18)) (-1)), (Z.eqb_spec (s32 (word file 22)) (-1)); auto; tauto.
Qed.
Print Assumptions C39_rejected.

(** What is missing: a file too short to have the height field makes the reader use uninitialised bytes ... *)
Theorem C39_short_file_refuted :
  forall alloc junk file, length file < 26 -> bmp_read alloc junk file = UB.
Proof.
  intros alloc junk file H; unfold bmp_read.
  destruct (Nat.lt_ge_cases (length file) 22) as [C|C].
  - rewrite le32_short by lia; reflexivity.
  - rewrite le32_word by lia; cbn [bind]; rewrite le32_short by lia; reflexivity.
Qed.
Print Assumptions C39_short_file_refuted.

(** ... and a failed allocation is followed by reading pixels through a null pointer. *)
Theorem C39_allocation_failure_refuted :
  forall junk file,
  26 <= length file -> (0 < s32 (word file 18))%Z -> (0 < s32 (word file 22))%Z ->
  bmp_read (fun _ => false) junk file = UB.
Proof.
  intros junk file L PX PY; unfold bmp_read; rewrite !le32_word by lia; cbn [bind].
  set (X := s32 (word file 18)) in *; set (Y := s32 (word file 22)) in *.
  destruct (Z.eqb_spec X (-1)); [lia|]; destruct (Z.eqb_spec Y (-1)); [lia|]; cbn [orb].
  destruct (Z.eqb_spec Y (- 2 ^ 31)); [lia|]; cbn [negb].
  match goal with |- (if ?b then _ else _) = _ => destruct b end; [|apply raw_image_to_array_null; lia].
  unfold bmp_read_wide, raw_image_to_array_wide; cbn [negb]; destruct (Z.ltb_spec X 0); [lia|].
  apply raw_image_to_array_null; lia.
Qed.
Print Assumptions C39_allocation_failure_refuted.

(** a 2x2 palette file stored top row first, with four palette entries *)
Definition palette_file : list Z :=
  ([66; 77; 0; 0; 0; 0; 0; 0; 0; 0; 70; 0; 0; 0; 40; 0; 0; 0; 2; 0; 0; 0; 254; 255; 255; 255; 1; 0; 8; 0]
   ++ repeat 0 24 ++ [1; 2; 3; 0; 11; 12; 13; 0; 21; 22; 23; 0; 31; 32; 33; 0] ++ [3; 1; 0; 0; 0; 2; 0; 0])%Z.

Example C39_case :
  bmp_read (fun _ => true) (fun n => repeat 9%Z n) palette_file =
    Ok (mkImage [2; 2] [[3; 2; 1]; [23; 22; 21]; [33; 32; 31]; [13; 12; 11]]%Z) /\
  26 <= length palette_file /\ s32 (word palette_file 22) = (-2)%Z /\
  Forall (fun b => (0 <= b < 256)%Z) palette_file.
Proof.
  split; [reflexivity|]; split; [cbn; lia|]; split; [reflexivity|].
  unfold palette_file; repeat (constructor; [lia|]); constructor.
Qed.

(** a 24-bit file of width -5 and one of two columns and 2^30 rows: 8 GiB *)
Definition header_of (w h : list Z) : list Z :=
  ([66; 77; 0; 0; 0; 0; 0; 0; 0; 0; 54; 0; 0; 0; 40; 0; 0; 0] ++ w ++ h ++ [1; 0; 24; 0] ++ repeat 0 24)%Z.

Example C39_wide_cases :
  (let file := header_of [251; 255; 255; 255] [2; 0; 0; 0] in
   (54 <= length file)%nat /\ nth 28 file 0 + nth 29 file 0 * 2 ^ 8 = 24 /\ s32 (word file 18) = -5 /\ s32 (word file 22) = 2)%Z /\
  (let file := header_of [2; 0; 0; 0] [0; 0; 0; 64] in
   (54 <= length file)%nat /\ s32 (word file 18) = 2 /\ s32 (word file 22) = 2 ^ 30 /\
   (Z.of_nat (stride24 2) * 2 ^ 30) mod 2 ^ 32 = 0)%Z.
Proof. cbn zeta; repeat split; cbn; lia. Qed.

(** ** C73: the header describes the file *)
Theorem C73_header :
  forall junk im w h,
  rgb_image im w h -> fresh junk -> (Z.of_nat (3 * w + 3) < 2 ^ 31)%Z -> (Z.of_nat h < 2 ^ 31)%Z ->
  exists file, bmp_write junk im = Ok file /\
    nth_error file 0 = Some 66%Z /\ nth_error file 1 = Some 77%Z /\
    word file 10 = 54%Z /\ word file 14 = 40%Z /\ word file 18 = Z.of_nat w /\ word file 22 = Z.of_nat h /\
    nth_error file 26 = Some 1%Z /\ nth_error file 27 = Some 0%Z /\ nth_error file 28 = Some 24%Z /\ nth_error file 29 = Some 0%Z /\
    word file 30 = 0%Z.
Proof.
  intros junk im w h R HJ Bx By; apply rgb_Repr in R as [R H3].
  destruct (bmp_write_spec junk im w h _ R HJ) as (raw & E & L & _); auto.
  { intros x y Hx Hy; apply H3; auto. }
  { unfold filling; lia. }
  eexists; split; [exact E|]; rewrite header_word_18, header_word_22 by lia; repeat split; reflexivity.
Qed.
Print Assumptions C73_header.

(** the size field is the length of the file exactly when the rows need no padding *)
Theorem C73_size_field_partial :
  forall junk im w h,
  rgb_image im w h -> fresh junk -> (54 + Z.of_nat ((3 * w + 3) * h) < 2 ^ 32)%Z ->
  (Z.of_nat (3 * w + 3) < 2 ^ 31)%Z -> (Z.of_nat h < 2 ^ 31)%Z ->
  exists file, bmp_write junk im = Ok file /\
    (word file 2 = Z.of_nat (length file) <-> w mod 4 = 0 \/ h = 0).
Proof.
  intros junk im w h R HJ B Bx By; apply rgb_Repr in R as [R H3].
  destruct (bmp_write_spec junk im w h _ R HJ) as (raw & E & L & _); auto.
  { intros x y Hx Hy; apply H3; auto. }
  { unfold filling; lia. }
  eexists; split; [exact E|].
  assert (Eq : (Z.of_nat w * Z.of_nat h * 3 + 54 = 54 + Z.of_nat (3 * w * h))%Z) by nia.
  rewrite header_word_2 by (split; nia).
  rewrite app_length, header_length, L, Eq; unfold filling.
  assert (M : w mod 4 * h = 0 <-> w mod 4 = 0 \/ h = 0) by (rewrite Nat.eq_mul_0; tauto).
  rewrite <- M, Nat.mul_add_distr_r; generalize (w mod 4 * h) (3 * w * h); lia.
Qed.
Print Assumptions C73_size_field_partial.

Theorem C73_size_field_refuted :
  exists im file, rgb_image im 3 2 /\ bmp_write (fun n => repeat 0%Z n) im = Ok file /\
    word file 2 = 72%Z /\ length file = 78.
Proof.
  exists im_3x2; eexists; split; [apply C37_case|]; split; [reflexivity|]; split; reflexivity.
Qed.
Print Assumptions C73_size_field_refuted.

(** ** C74: .dbmp and .hsv files *)
Theorem C74_double_image :
  forall (A : Type) (zero : A) junk im w h,
  dims im = [w; h] -> length (pix im) = w * h -> fresh junk ->
  (Z.of_nat ((w + 8) * h) < 2 ^ 31)%Z -> (Z.of_nat (w + 8) < 2 ^ 31)%Z -> (Z.of_nat h < 2 ^ 31)%Z ->
  exists header cells, dwrite junk im = Ok (header, cells) /\ length header = 54 /\
    length cells = (w + w mod 8) * h /\ dread zero header cells = Ok im.
Proof.
  intros A zero junk im w h D L HJ B Bx By.
  assert (R : Repr im w h (fun x y => nth (y * w + x) (pix im) zero)).
  { repeat split; auto; intros x y Hx Hy; apply nth_error_nth'; nia. }
  destruct (dround_trip zero junk im w h _ R HJ B Bx By) as (hd & cells & im' & E & Lc & E' & R').
  exists hd, cells; split; auto; split; [|split; auto].
  - unfold dwrite in E; destruct (darray_to_raw junk im) as [raw| |]; cbn [bind] in E; try discriminate.
    rewrite (get_width_Repr _ _ _ _ R), (get_height_Repr _ _ _ _ R) in E; cbn [bind] in E.
    destruct ((2 ^ 31 <=? Z.of_nat (w + 8))%Z || (2 ^ 31 <=? Z.of_nat h)%Z); [discriminate|].
    injection E as <- _; reflexivity.
  - rewrite E'; f_equal; eapply Repr_eq; eauto.
Qed.
Print Assumptions C74_double_image.

Theorem C74_hsv_image :
  forall (A : Type) (zero : A) junk im w h,
  dims im = [w; h] -> length (pix im) = w * h -> Forall (fun px => length px = 3) (pix im) -> fresh junk ->
  (Z.of_nat ((3 * w + 8) * h) < 2 ^ 31)%Z -> (Z.of_nat (3 * w + 8) < 2 ^ 31)%Z -> (Z.of_nat h < 2 ^ 31)%Z ->
  exists header cells, hwrite junk im = Ok (header, cells) /\
    length cells = (3 * w + w mod 8) * h /\ hread zero header cells = Ok im.
Proof.
  intros A zero junk im w h D L F HJ B Bx By.
  assert (R : Repr im w h (fun x y => nth (y * w + x) (pix im) [])).
  { repeat split; auto; intros x y Hx Hy; apply nth_error_nth'; nia. }
  assert (H3 : forall x y, x < w -> y < h -> length (nth (y * w + x) (pix im) []) = 3).
  { intros x y Hx Hy; rewrite Forall_forall in F; apply F, nth_In; nia. }
  destruct (hround_trip zero junk im w h _ R HJ H3 B Bx By) as (hd & cells & im' & E & Lc & E' & R').
  exists hd, cells; split; auto; split; auto; rewrite E'; f_equal; eapply Repr_eq; eauto.
Qed.
Print Assumptions C74_hsv_image.

Example C74_case :
  (let* hc := dwrite (fun n => repeat 0 n) (mkImage [3; 2] [1; 2; 3; 4; 5; 6]) in dread 0 (fst hc) (snd hc)) =
    Ok (mkImage [3; 2] [1; 2; 3; 4; 5; 6]) /\
  (let* hc := hwrite (fun n => repeat 0 n) (mkImage [1; 2] [[1; 2; 3]; [4; 5; 6]]) in hread 0 (fst hc) (snd hc)) =
    Ok (mkImage [1; 2] [[1; 2; 3]; [4; 5; 6]]).
Proof. split; reflexivity. Qed.
