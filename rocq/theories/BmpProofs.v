(** BmpProofs.v - lemmas about BmpModel. *)
From Coq Require Import ZifyBool ZifyNat.
From Verif Require Import Base ImageModel ImageFacts PixelProofs ConvNProofs BmpModel.
Open Scope nat_scope.
Ltac Zify.zify_post_hook ::= Z.div_mod_to_equations.

(** ** bytes and words *)
Definition is_byte (b : Z) : Prop := (0 <= b < 256)%Z.

Lemma byte_range v k : is_byte (byte v k).
Proof. unfold byte, is_byte; apply Z.mod_pos_bound; lia. Qed.

Lemma byte_le32 v : (0 <= v < 2 ^ 32)%Z ->
  (byte v 0 + byte v 1 * 2 ^ 8 + byte v 2 * 2 ^ 16 + byte v 3 * 2 ^ 24)%Z = v.
Proof.
  intros H; unfold byte.
  change (2 ^ (8 * Z.of_nat 0))%Z with 1%Z; change (2 ^ (8 * Z.of_nat 1))%Z with 256%Z.
  change (2 ^ (8 * Z.of_nat 2))%Z with 65536%Z; change (2 ^ (8 * Z.of_nat 3))%Z with 16777216%Z.
  change (2 ^ 8)%Z with 256%Z; change (2 ^ 16)%Z with 65536%Z; change (2 ^ 24)%Z with 16777216%Z.
  change (2 ^ 32)%Z with 4294967296%Z in H. lia.
Qed.

(** the little-endian word at position [k] of a file that has it *)
Definition word (file : list Z) (k : nat) : Z :=
  (nth k file 0 + nth (k + 1) file 0 * 2 ^ 8 + nth (k + 2) file 0 * 2 ^ 16 + nth (k + 3) file 0 * 2 ^ 24)%Z.

Lemma vget_nth_d {A} (l : list A) k d : k < length l -> vget l k = Ok (nth k l d).
Proof. intros H; apply vget_ok, nth_error_nth'; auto. Qed.

Lemma le32_word file k : k + 4 <= length file -> le32 file k = Ok (word file k).
Proof.
  intros H; unfold le32; rewrite !(vget_nth_d _ _ 0%Z) by lia; reflexivity.
Qed.

Lemma le32_short file k : length file < k + 4 -> le32 file k = UB.
Proof.
  intros H; unfold le32, vget.
  destruct (nth_error file k) eqn:E0; [|reflexivity]; cbn [bind].
  destruct (nth_error file (k + 1)) eqn:E1; [|reflexivity]; cbn [bind].
  destruct (nth_error file (k + 2)) eqn:E2; [|reflexivity]; cbn [bind].
  destruct (nth_error file (k + 3)) eqn:E3; [|reflexivity].
  assert (k + 3 < length file) by (apply nth_error_Some; congruence); lia.
Qed.

Lemma nth_byte file k : Forall is_byte file -> is_byte (nth k file 0%Z).
Proof.
  intros F; destruct (Nat.lt_ge_cases k (length file)) as [H|H].
  - rewrite Forall_forall in F; apply F, nth_In; auto.
  - rewrite nth_overflow by auto; unfold is_byte; lia.
Qed.

Lemma word_range file k : Forall is_byte file -> (0 <= word file k < 2 ^ 32)%Z.
Proof.
  intros F; unfold word.
  pose proof (nth_byte file k F); pose proof (nth_byte file (k + 1) F).
  pose proof (nth_byte file (k + 2) F); pose proof (nth_byte file (k + 3) F); unfold is_byte in *.
  change (2 ^ 8)%Z with 256%Z; change (2 ^ 16)%Z with 65536%Z; change (2 ^ 24)%Z with 16777216%Z.
  change (2 ^ 32)%Z with 4294967296%Z. lia.
Qed.

Lemma s32_small z : (0 <= z < 2 ^ 31)%Z -> s32 z = z.
Proof.
  intros H; unfold s32, u32; rewrite Z.mod_small by lia.
  destruct (Z.ltb_spec z (2 ^ 31)); lia.
Qed.

Lemma s32_range z : (- 2 ^ 31 <= s32 z < 2 ^ 31)%Z.
Proof.
  unfold s32, u32; pose proof (Z.mod_pos_bound z (2 ^ 32)).
  destruct (Z.ltb_spec (z mod 2 ^ 32) (2 ^ 31)); lia.
Qed.

(** ** fread *)
Lemma nth_error_app_split {A} (l r : list A) k :
  nth_error (l ++ r) k = if k <? length l then nth_error l k else nth_error r (k - length l).
Proof.
  destruct (Nat.ltb_spec k (length l)); [apply nth_error_app1 | apply nth_error_app2]; auto.
Qed.

Lemma nth_error_skipn' {A} n (l : list A) k : nth_error (skipn n l) k = nth_error l (n + k).
Proof. revert l; induction n as [|n IH]; intros [|a l]; simpl; auto; destruct k; auto. Qed.

Lemma nth_error_firstn' {A} n (l : list A) k : k < n -> nth_error (firstn n l) k = nth_error l k.
Proof. revert l k; induction n as [|n IH]; intros [|a l] [|k] H; simpl; auto; try lia. apply IH; lia. Qed.

Lemma fread_at_length file pos n buf : n <= length buf -> length (fread_at file pos n buf) = length buf.
Proof.
  intros H; unfold fread_at; rewrite app_length, skipn_length, firstn_length; lia.
Qed.

(** the bytes of the file where it has them, the old content elsewhere *)
Lemma fread_at_nth file pos n buf k d : n <= length buf -> k < n ->
  nth k (fread_at file pos n buf) d = if pos + k <? length file then nth (pos + k) file d else nth k buf d.
Proof.
  intros H Hk; unfold fread_at.
  rewrite <- !(nth_default_eq), !(fun l => eq_refl : nth_default d l k = match nth_error l k with Some x => x | None => d end).
  unfold nth_default; rewrite nth_error_app_split, firstn_length, skipn_length.
  destruct (Nat.ltb_spec (pos + k) (length file)) as [L|L].
  - destruct (Nat.ltb_spec k (Nat.min n (length file - pos))); [|lia].
    rewrite nth_error_firstn', nth_error_skipn' by auto; reflexivity.
  - destruct (Nat.ltb_spec k (Nat.min n (length file - pos))); [lia|].
    rewrite nth_error_skipn'; replace (Nat.min n (length file - pos) + (k - Nat.min n (length file - pos))) with k by lia.
    reflexivity.
Qed.

Lemma fread_at_beyond file pos n buf k d : n <= length buf -> n <= k ->
  nth k (fread_at file pos n buf) d = nth k buf d.
Proof.
  intros H Hk; unfold fread_at; rewrite <- !nth_default_eq; unfold nth_default.
  rewrite nth_error_app_split, firstn_length, skipn_length.
  destruct (Nat.ltb_spec k (Nat.min n (length file - pos))); [lia|].
  rewrite nth_error_skipn'; replace (Nat.min n (length file - pos) + (k - Nat.min n (length file - pos))) with k by lia.
  reflexivity.
Qed.

(** ** loops that write cells of a buffer *)
Lemma vscatter {I B} (l : list I) (body : I -> list B -> res (list B)) (p : I -> nat) (v : I -> B) buf :
  (forall i s, In i l -> length s = length buf -> body i s = vset s (p i) (v i)) ->
  (forall i, In i l -> p i < length buf) ->
  (forall i j, In i l -> In j l -> p i = p j -> v i = v j) ->
  exists buf', for_list l body buf = Ok buf' /\ length buf' = length buf /\
    (forall i, In i l -> nth_error buf' (p i) = Some (v i)) /\
    (forall k, (forall i, In i l -> p i <> k) -> nth_error buf' k = nth_error buf k).
Proof.
  revert buf; induction l as [|i l IH]; intros buf H P C; simpl.
  - exists buf; repeat split; auto; intros i [].
  - rewrite H by (simpl; auto); rewrite vset_ok by (apply P; simpl; auto); cbn [bind].
    destruct (IH (list_upd (p i) (v i) buf)) as (b & E & L & Hi & Ho).
    + intros j s Hj Ls; rewrite list_upd_length in Ls; apply H; simpl; auto.
    + intros j Hj; rewrite list_upd_length; apply P; simpl; auto.
    + intros j k Hj Hk; apply C; simpl; auto.
    + rewrite list_upd_length in L; exists b; repeat split; auto.
      * intros j [<-|Hj]; [|auto].
        destruct (in_dec Nat.eq_dec (p i) (map p l)) as [Hin|Hn].
        -- apply in_map_iff in Hin as (j & Ej & Hj); rewrite <- Ej, (C i j) by (simpl; auto); apply Hi; auto.
        -- rewrite Ho; [apply list_upd_same, P; simpl; auto|].
           intros j Hj E'; apply Hn; rewrite <- E'; apply in_map; auto.
      * intros k Hk; rewrite Ho by (intros; apply Hk; simpl; auto).
        apply list_upd_other; intros ->; eapply Hk; simpl; eauto.
Qed.

(** a loop over rows, columns and three channels *)
Definition cells3 (ys xs : nat) : list ((nat * nat) * nat) := pairs (grid ys xs) (fun _ => seq 0 3).

Lemma in_cells3 ys xs y x c : In ((y, x), c) (cells3 ys xs) <-> y < ys /\ x < xs /\ c < 3.
Proof. unfold cells3; rewrite in_pairs, in_grid, in_seq; cbn [fst snd]; lia. Qed.

(** the address of channel [c] of pixel (x, y) in a buffer with rows of 3*xs+f cells *)
Definition addr (xs f x y c : nat) : nat := 3 * (y * xs + x) + y * f + (2 - c).

Lemma addr_row xs f x y c : addr xs f x y c = y * (3 * xs + f) + (3 * x + (2 - c)).
Proof. unfold addr; nia. Qed.

Lemma row_inj r a b a' b' : b < r -> b' < r -> a * r + b = a' * r + b' -> a = a' /\ b = b'.
Proof.
  intros Hb Hb' E; assert (a = a').
  { destruct (Nat.lt_trichotomy a a') as [C|[C|C]]; auto; exfalso.
    - assert (a * r + r <= a' * r) by nia; lia.
    - assert (a' * r + r <= a * r) by nia; lia. }
  subst; lia.
Qed.

Lemma addr_lt xs ys f x y c : x < xs -> y < ys -> addr xs f x y c < (3 * xs + f) * ys.
Proof.
  rewrite addr_row; intros; assert (B : 3 * x + (2 - c) < 3 * xs + f) by lia.
  set (r := 3 * xs + f) in *; clearbody r; assert (r * (y + 1) <= r * ys) by (apply Nat.mul_le_mono_l; lia); lia.
Qed.

Lemma addr_inj xs f x y c x' y' c' : x < xs -> x' < xs -> c < 3 -> c' < 3 ->
  addr xs f x y c = addr xs f x' y' c' -> x = x' /\ y = y' /\ c = c'.
Proof.
  rewrite !addr_row; intros Hx Hx' Hc Hc' E; apply row_inj in E as [E1 E2]; lia.
Qed.

Lemma pack3 {B} xs ys f (get : nat -> nat -> nat -> res B) (g : nat -> nat -> nat -> B) buf :
  length buf = (3 * xs + f) * ys ->
  (forall x y c, x < xs -> y < ys -> c < 3 -> get x y c = Ok (g x y c)) ->
  exists buf', for_list (grid ys xs) (fun p buf => for_range 3 (fun c buf =>
      let* v := get (snd p) (fst p) c in vset buf (addr xs f (snd p) (fst p) c) v) buf) buf = Ok buf' /\
    length buf' = length buf /\
    (forall x y c, x < xs -> y < ys -> c < 3 -> nth_error buf' (addr xs f x y c) = Some (g x y c)) /\
    (forall k, (forall x y c, x < xs -> y < ys -> c < 3 -> addr xs f x y c <> k) -> nth_error buf' k = nth_error buf k).
Proof.
  intros L H; unfold for_range.
  rewrite (for_list_nested (grid ys xs) (fun _ => seq 0 3)
             (fun p c buf => let* v := get (snd p) (fst p) c in vset buf (addr xs f (snd p) (fst p) c) v)).
  destruct (vscatter (cells3 ys xs)
              (fun p buf => let* v := get (snd (fst p)) (fst (fst p)) (snd p) in
                            vset buf (addr xs f (snd (fst p)) (fst (fst p)) (snd p)) v)
              (fun p => addr xs f (snd (fst p)) (fst (fst p)) (snd p)) (fun p => g (snd (fst p)) (fst (fst p)) (snd p)) buf) as (b & E & Lb & Hi & Ho).
  - intros [[y x] c] s Hin Ls; apply in_cells3 in Hin; cbn [fst snd].
    rewrite H by tauto; reflexivity.
  - intros [[y x] c] Hin; apply in_cells3 in Hin; cbn [fst snd]; rewrite L; apply addr_lt; tauto.
  - intros [[y x] c] [[y' x'] c'] Hin Hin' Ea; apply in_cells3 in Hin, Hin'; cbn [fst snd] in *.
    apply addr_inj in Ea as (-> & -> & ->); tauto.
  - exists b; repeat split; auto.
    + intros x y c Hx Hy Hc; specialize (Hi ((y, x), c)); cbn [fst snd] in Hi; apply Hi, in_cells3; auto.
    + intros k Hk; apply Ho; intros [[y x] c] Hin; apply in_cells3 in Hin; cbn [fst snd]; apply Hk; tauto.
Qed.

Lemma at_ok {A} (im : image A) ds idx : dims im = ds -> in_range ds idx -> at_ im idx = vget (pix im) (off ds idx).
Proof. intros D HI; unfold at_; rewrite loc_checked_in by (rewrite D; exact HI); simpl; rewrite D; reflexivity. Qed.

Lemma unpack3 {B} (z : B) xs ys (get : nat -> nat -> nat -> res B) (g : nat -> nat -> nat -> B) :
  (forall x y c, x < xs -> y < ys -> c < 3 -> get x y c = Ok (g x y c)) ->
  exists im, for_list (grid ys xs) (fun p out => for_range 3 (fun c out =>
      let* v := get (snd p) (fst p) c in
      let* px := at_ out [snd p; fst p] in
      let* px := vset px c v in
      at_set out [snd p; fst p] px) out) (image_sizes [z; z; z] [xs; ys]) = Ok im /\
    Repr im xs ys (fun x y => [g x y 0; g x y 1; g x y 2]).
Proof.
  intros H.
  set (Inv := fun o : image (list B) => dims o = [xs; ys] /\ length (pix o) = xs * ys /\
                                        Forall (fun px => length px = 3) (pix o)).
  set (body2 := fun (p : nat * nat) (o : image (list B)) =>
                  at_set o [snd p; fst p] [g (snd p) (fst p) 0; g (snd p) (fst p) 1; g (snd p) (fst p) 2]).
  assert (I0 : Inv (image_sizes [z; z; z] [xs; ys])).
  { unfold Inv, image_sizes; cbn [dims pix]; rewrite repeat_length, prodn2; repeat split; auto.
    apply Forall_forall; intros px Hp; apply repeat_spec in Hp; subst; reflexivity. }
  rewrite (for_list_ext_inv Inv _ _ body2); auto.
  - unfold body2.
    apply (overlay_all (grid ys xs) _ (fun p => snd p) (fun p => fst p) _ xs ys
             (fun x y => [g x y 0; g x y 1; g x y 2])).
    + apply I0.
    + apply I0.
    + intros [y x] s Hp D L; apply in_grid in Hp; cbn [fst snd] in *; apply (at_set2_ok s xs ys); tauto.
    + intros [y x] Hp; apply in_grid in Hp; cbn [fst snd] in *; tauto.
    + intros x y Hx Hy; exists (y, x); rewrite in_grid; auto.
  - intros [y x] s Hp (D & L & F); apply in_grid in Hp as [Hy Hx]; unfold body2; cbn [fst snd] in *.
    assert (G : forall (o : image (list B)) px, dims o = [xs; ys] -> length (pix o) = xs * ys ->
                at_ (im_upd o (y * xs + x) px) [x; y] = Ok px).
    { intros o px Do Lo; rewrite (at_ok _ [xs; ys] [x; y]).
      - rewrite off2; unfold im_upd; cbn [pix]; unfold vget; rewrite list_upd_same; auto; nia.
      - exact Do.
      - apply in_range2; auto. }
    destruct (nth_error_lt (pix s) (y * xs + x)) as [px Ep]; [nia|].
    assert (L3 : length px = 3) by (rewrite Forall_forall in F; apply F; eapply nth_error_In; eauto).
    apply length3 in L3 as (a & b & c & ->).
    unfold for_range; cbn [for_list seq].
    rewrite !H by (auto; lia); cbn [bind].
    assert (A0 : at_ s [x; y] = Ok [a; b; c]).
    { rewrite (at_ok _ [xs; ys] [x; y]); [rewrite off2; apply vget_ok; auto | auto | apply in_range2; auto]. }
    rewrite A0; cbn [bind]; rewrite vset_ok by (simpl; lia); cbn [bind list_upd].
    rewrite (at_set2_ok s xs ys) by auto; cbn [bind].
    rewrite G by auto; cbn [bind]; rewrite vset_ok by (simpl; lia); cbn [bind list_upd].
    rewrite (at_set2_ok (im_upd s _ _) xs ys) by (auto; unfold im_upd; cbn [pix]; rewrite list_upd_length; auto).
    cbn [bind]; rewrite G by (auto; unfold im_upd; cbn [pix]; rewrite list_upd_length; auto).
    cbn [bind]; rewrite vset_ok by (simpl; lia); cbn [bind list_upd].
    rewrite !(at_set2_ok _ xs ys) by (auto; unfold im_upd; cbn [pix]; rewrite ?list_upd_length; auto).
    cbn [bind]; unfold im_upd; cbn [dims pix]; do 2 f_equal.
    apply nth_error_ext; intros k; destruct (Nat.eq_dec k (y * xs + x)) as [->|N].
    + rewrite !list_upd_same by (rewrite ?list_upd_length; nia); auto.
    + rewrite !list_upd_other by auto; auto.
  - intros [y x] s s' Hp (D & L & F) E; apply in_grid in Hp as [Hy Hx]; unfold body2 in E; cbn [fst snd] in *.
    rewrite (at_set2_ok s xs ys) in E by auto; injection E as <-.
    unfold Inv, im_upd; cbn [dims pix]; rewrite list_upd_length; repeat split; auto.
    apply Forall_forall; intros px Hpx; apply In_nth_error in Hpx as [k Ek].
    destruct (Nat.eq_dec k (y * xs + x)) as [->|N].
    + rewrite list_upd_same in Ek by nia; injection Ek as <-; reflexivity.
    + rewrite list_upd_other in Ek by auto; rewrite Forall_forall in F; apply F; eapply nth_error_In; eauto.
Qed.

(** ** BMP buffers *)
Notation row_bytes xs := (3 * xs + filling 4 xs).

Lemma raw_image_to_array_spec xs ys raw : length raw = row_bytes xs * ys ->
  exists im, raw_image_to_array xs ys (Some raw) = Ok im /\
    Repr im xs ys (fun x y => [nth (addr xs (filling 4 xs) x y 0) raw 0; nth (addr xs (filling 4 xs) x y 1) raw 0;
                               nth (addr xs (filling 4 xs) x y 2) raw 0]%Z).
Proof.
  intros L; unfold raw_image_to_array.
  apply (unpack3 0%Z xs ys (fun x y c => vget raw (addr xs (filling 4 xs) x y c))
           (fun x y c => nth (addr xs (filling 4 xs) x y c) raw 0%Z)).
  intros x y c Hx Hy Hc; apply vget_nth_d; rewrite L; apply addr_lt; auto.
Qed.

Lemma raw_image_to_array_null xs ys : 0 < xs -> 0 < ys -> raw_image_to_array xs ys None = UB.
Proof.
  intros Hx Hy; unfold raw_image_to_array, grid; destruct ys as [|ys]; [lia|]; destruct xs as [|xs]; [lia|]. reflexivity.
Qed.

Lemma grid_empty_l xs : grid 0 xs = [].
Proof. reflexivity. Qed.

Lemma grid_empty_r ys : grid ys 0 = [].
Proof. unfold grid, pairs; induction (seq 0 ys); auto. Qed.

Lemma raw_image_to_array_empty : exists im, raw_image_to_array 0 0 None = Ok im /\ dims im = [0; 0] /\ pix im = [].
Proof. eexists; split; [reflexivity|]; auto. Qed.

(** the palette of an 8-bit file: its first entries come from the file, the others are zero *)
Definition palette_byte (file : list Z) (off pstart : Z) (j : nat) : Z :=
  if (Z.of_nat j <? Z.min 1024 (s32 (off - pstart)))%Z then nth (Z.to_nat pstart + j) file 0%Z else 0%Z.

(** the file format's row sizes: rounded up to a multiple of four bytes *)
Definition stride24 (xs : nat) : nat := 4 * ((3 * xs + 3) / 4).
Definition stride8 (xs : nat) : nat := 4 * ((xs + 3) / 4).

Lemma row_bytes_stride xs : row_bytes xs = stride24 xs.
Proof. unfold stride24, filling; lia. Qed.
Lemma row8_stride xs : xs + (4 - xs mod 4) mod 4 = stride8 xs.
Proof. unfold stride8; lia. Qed.

(** channel [c] (0 red, 1 green, 2 blue) of column [x] of the [r]-th row stored in the file *)
Definition stored (file : list Z) (xs x r c : nat) : Z :=
  if length file <? 54 then 255%Z
  else
    let bits := (nth 28 file 0 + nth 29 file 0 * 2 ^ 8)%Z in
    let off := word file 10 in
    if (bits =? 24)%Z then nth (Z.to_nat off + (r * stride24 xs + 3 * x + (2 - c))) file 255%Z
    else if (bits =? 8)%Z then
      palette_byte file off (u32 (14 + word file 14))
        (4 * Z.to_nat (nth (Z.to_nat off + (r * stride8 xs + x)) file 0%Z) + (2 - c))
    else 255%Z.

Lemma nth_if_lt {A} (l : list A) k d : (if k <? length l then nth k l d else d) = nth k l d.
Proof. destruct (Nat.ltb_spec k (length l)); auto; rewrite nth_overflow; auto. Qed.

Lemma nth_repeat_lt {A} (a d : A) n k : k < n -> nth k (repeat a n) d = a.
Proof.
  revert k; induction n as [|n IH]; intros [|k] H; simpl; auto; try lia. apply IH; lia.
Qed.

Lemma bmp_palette file off pstart j : j < 1024 ->
  nth j (if (0 <? Z.min 1024 (s32 (off - pstart)))%Z
         then fread_at file (Z.to_nat pstart) (Z.to_nat (Z.min 1024 (s32 (off - pstart)))) (repeat 0%Z 1024)
         else repeat 0%Z 1024) 0%Z = palette_byte file off pstart j.
Proof.
  intros Hj; unfold palette_byte; set (ps := Z.min 1024 (s32 (off - pstart))).
  assert (B : (ps <= 1024)%Z) by lia; clearbody ps.
  destruct (Z.ltb_spec 0 ps) as [P|P].
  - destruct (Z.ltb_spec (Z.of_nat j) ps) as [Q|Q].
    + rewrite fread_at_nth by (rewrite ?repeat_length; lia).
      destruct (Nat.ltb_spec (Z.to_nat pstart + j) (length file)) as [R|R]; auto.
      rewrite nth_repeat, nth_overflow; auto.
    + rewrite fread_at_beyond by (rewrite ?repeat_length; lia); apply nth_repeat.
  - destruct (Z.ltb_spec (Z.of_nat j) ps); [lia|]; apply nth_repeat.
Qed.

Lemma bmp_palette_length file off pstart :
  length (if (0 <? Z.min 1024 (s32 (off - pstart)))%Z
         then fread_at file (Z.to_nat pstart) (Z.to_nat (Z.min 1024 (s32 (off - pstart)))) (repeat 0%Z 1024)
         else repeat 0%Z 1024) = 1024.
Proof.
  destruct (0 <? Z.min 1024 (s32 (off - pstart)))%Z; [|apply repeat_length].
  rewrite fread_at_length; rewrite repeat_length; lia.
Qed.

(** one row of the 8-bit reader *)
Lemma row8 xs ys f y (get : nat -> nat -> res Z) (g : nat -> nat -> Z) buf :
  let row := 3 * xs + f in
  y < ys -> length buf = row * ys ->
  (forall x c, x < xs -> c < 3 -> get x c = Ok (g x c)) ->
  exists buf', (let* buf := for_range xs (fun x buf => for_range 3 (fun c buf =>
                   let* v := get x c in vset buf (y * row + x * 3 + c) v) buf) buf in
                for_range f (fun p buf => vset buf (y * row + xs * 3 + p) 0%Z) buf) = Ok buf' /\
    length buf' = length buf /\
    (forall x c, x < xs -> c < 3 -> nth_error buf' (y * row + x * 3 + c) = Some (g x c)) /\
    (forall y' j, y' < y -> j < row -> nth_error buf' (y' * row + j) = nth_error buf (y' * row + j)).
Proof.
  intros row Hy L H.
  assert (Hlt : forall j, j < row -> y * row + j < row * ys) by (intros; nia).
  destruct (vscatter (pairs (seq 0 xs) (fun _ => seq 0 3))
             (fun p buf => let* v := get (fst p) (snd p) in vset buf (y * row + fst p * 3 + snd p) v)
             (fun p => y * row + fst p * 3 + snd p) (fun p => g (fst p) (snd p)) buf) as (b & E & Lb & Hi & Ho).
  - intros [x c] s Hin _; apply in_pairs in Hin as [Hx Hc]; cbn [fst snd] in *; rewrite in_seq in Hx, Hc.
    rewrite H by lia; reflexivity.
  - intros [x c] Hin; apply in_pairs in Hin as [Hx Hc]; cbn [fst snd] in *; rewrite in_seq in Hx, Hc.
    rewrite L, <- Nat.add_assoc; apply Hlt; unfold row; lia.
  - intros [x c] [x' c'] Hin Hin' Ea; apply in_pairs in Hin as [Hx Hc], Hin' as [Hx' Hc']; cbn [fst snd] in *.
    rewrite in_seq in Hx, Hc, Hx', Hc'; assert (x = x') as -> by lia; assert (c = c') as -> by lia; auto.
  - destruct (vscatter (seq 0 f) (fun p buf => vset buf (y * row + xs * 3 + p) 0%Z)
               (fun p => y * row + xs * 3 + p) (fun _ => 0%Z) b) as (b2 & E2 & Lb2 & Hi2 & Ho2); auto.
    + intros p Hp; rewrite in_seq in Hp; rewrite Lb, L, <- Nat.add_assoc; apply Hlt; unfold row; lia.
    + exists b2; split; [|split; [congruence|split]].
      * unfold for_range.
        rewrite (for_list_nested (seq 0 xs) (fun _ => seq 0 3)
                   (fun x c buf => let* v := get x c in vset buf (y * row + x * 3 + c) v)).
        rewrite E; cbn [bind]; exact E2.
      * intros x c Hx Hc; rewrite Ho2 by (intros p Hp; rewrite in_seq in Hp; lia).
        apply (Hi (x, c)); apply in_pairs; cbn [fst snd]; rewrite !in_seq; lia.
      * intros y' j Hy' Hj.
        assert (y' * row + row <= y * row) by nia.
        rewrite Ho2 by (intros p Hp; lia); apply Ho.
        intros [x c] Hin; cbn [fst snd]; lia.
Qed.

Lemma bmp_read_detail_spec alloc file xs ys :
  Forall is_byte file -> (forall n, alloc n = true) ->
  exists data, bmp_read_detail alloc file xs ys (repeat 255%Z (row_bytes xs * ys)) = Ok data /\
    length data = row_bytes xs * ys /\
    forall x y c, x < xs -> y < ys -> c < 3 -> nth (addr xs (filling 4 xs) x y c) data 0%Z = stored file xs x y c.
Proof.
  intros F HA; unfold bmp_read_detail, stored; rewrite <- row_bytes_stride, <- row8_stride; set (f := filling 4 xs).
  destruct (Nat.ltb_spec (length file) 54) as [Sh|Lg].
  { eexists; split; [reflexivity|]; split; [apply repeat_length|].
    intros x y c Hx Hy Hc; apply nth_repeat_lt, addr_lt; auto. }
  rewrite !(vget_nth_d _ _ 0%Z) by lia; cbn [bind]; rewrite (le32_word file 10) by lia; cbn [bind].
  set (bits := (nth 28 file 0 + nth 29 file 0 * 2 ^ 8)%Z).
  destruct (bits =? 24)%Z.
  { eexists; split; [reflexivity|]; split; [rewrite fread_at_length; rewrite repeat_length; lia|].
    intros x y c Hx Hy Hc; pose proof (addr_lt xs ys f x y c Hx Hy) as Ha.
    rewrite fread_at_nth by (rewrite ?repeat_length; lia).
    rewrite nth_repeat_lt, addr_row by auto.
    replace (y * (3 * xs + f) + 3 * x + (2 - c)) with (y * (3 * xs + f) + (3 * x + (2 - c))) by lia.
    destruct (Nat.ltb_spec (Z.to_nat (word file 10) + (y * (3 * xs + f) + (3 * x + (2 - c)))) (length file)) as [In|Out].
    - apply nth_indep; auto.
    - rewrite nth_overflow; auto. }
  destruct (bits =? 8)%Z.
  2: { eexists; split; [reflexivity|]; split; [apply repeat_length|].
       intros x y c Hx Hy Hc; apply nth_repeat_lt, addr_lt; auto. }
  rewrite (le32_word file 14) by lia; cbn [bind]; rewrite HA.
  set (off := word file 10); set (pstart := u32 (14 + word file 14)); set (pad := (4 - xs mod 4) mod 4).
  match goal with |- context [vget (if ?b then ?t else ?e)] => set (pal := if b then t else e) end.
  assert (Lp : length pal = 1024) by apply bmp_palette_length.
  assert (Np : forall j, j < 1024 -> nth j pal 0%Z = palette_byte file off pstart j) by (intros; apply bmp_palette; auto).
  clearbody pal.
  set (idx := fun r x => nth (Z.to_nat off + (r * (xs + pad) + x)) file 0%Z).
  assert (Bi : forall r x, is_byte (idx r x)) by (intros; apply nth_byte; auto).
  set (Inv := fun (y : nat) (b : list Z) => length b = (3 * xs + f) * ys /\
    forall y' x c, y' < y -> x < xs -> c < 3 ->
         nth_error b (y' * (3 * xs + f) + x * 3 + c) = Some (palette_byte file off pstart (4 * Z.to_nat (idx y' x) + c))).
  destruct (for_range_inv ys Inv (fun y buf =>
          let row_buffer := fread_at file (Z.to_nat off + y * (xs + pad)) (xs + pad) (repeat 0%Z (xs + pad)) in
          let* buf := for_range xs (fun x buf =>
            let* index := vget row_buffer x in
            let index := Z.to_nat index in
            for_range 3 (fun c buf =>
              let* v := vget pal (index * 4 + c) in
              vset buf (y * (3 * xs + f) + x * 3 + c) v) buf) buf in
          for_range f (fun p buf => vset buf (y * (3 * xs + f) + xs * 3 + p) 0%Z) buf)
          (repeat 255%Z ((3 * xs + f) * ys))) as (data & E & Ld & Hd).
  - split; [apply repeat_length | intros; lia].
  - intros y b Hy [Lb Hb]; cbv zeta.
    set (rb := fread_at file (Z.to_nat off + y * (xs + pad)) (xs + pad) (repeat 0%Z (xs + pad))).
    assert (Hrb : forall x, x < xs -> vget rb x = Ok (idx y x)).
    { intros x Hx; unfold rb; rewrite (vget_nth_d _ _ 0%Z) by (rewrite fread_at_length; rewrite repeat_length; lia).
      f_equal; rewrite fread_at_nth by (rewrite ?repeat_length; lia).
      rewrite nth_repeat, nth_if_lt; unfold idx; f_equal; lia. }
    clearbody rb.
    destruct (row8 xs ys f y (fun x c => vget pal (Z.to_nat (idx y x) * 4 + c))
                (fun x c => palette_byte file off pstart (4 * Z.to_nat (idx y x) + c)) b Hy Lb) as (b' & E & Lb' & Hi & Ho).
    + intros x c Hx Hc; pose proof (Bi y x) as [? ?].
      rewrite (vget_nth_d _ _ 0%Z), Np by lia; f_equal; f_equal; lia.
    + exists b'; split.
      * rewrite <- E; f_equal; unfold for_range at 1 3; apply for_list_ext.
        intros x s Hx; rewrite in_seq in Hx; rewrite Hrb by lia; reflexivity.
      * split; [congruence|]; intros y' x c Hy' Hx Hc.
        destruct (Nat.eq_dec y' y) as [->|N]; [apply Hi; auto|].
        rewrite <- Nat.add_assoc, Ho, Nat.add_assoc by lia; apply Hb; lia.
  - exists data; split; [exact E|]; split; [exact Ld|].
    intros x y c Hx Hy Hc; rewrite addr_row; apply nth_error_nth.
    replace (y * (3 * xs + f) + (3 * x + (2 - c))) with (y * (3 * xs + f) + x * 3 + (2 - c)) by lia.
    rewrite Hd by lia; reflexivity.
Qed.

Lemma flip_rows_spec xs ys orig dest :
  length orig = row_bytes xs * ys -> length dest = row_bytes xs * ys ->
  exists dest', flip_rows xs ys orig dest = Ok dest' /\ length dest' = row_bytes xs * ys /\
    forall x y c, x < xs -> y < ys -> c < 3 ->
      nth (addr xs (filling 4 xs) x y c) dest' 0%Z = nth (addr xs (filling 4 xs) x (ys - 1 - y) c) orig 0%Z.
Proof.
  intros Lo Ld; unfold flip_rows; set (f := filling 4 xs) in *.
  destruct (pack3 xs ys f (fun x y c => vget orig (addr xs f x (ys - y - 1) c))
              (fun x y c => nth (addr xs f x (ys - y - 1) c) orig 0%Z) dest Ld) as (b & E & Lb & Hi & _).
  - intros x y c Hx Hy Hc; apply vget_nth_d; rewrite Lo; apply addr_lt; lia.
  - exists b; split; [|split; [congruence|]].
    + rewrite <- E; apply for_list_ext; intros [y x] s Hp; apply in_grid in Hp as [Hy Hx]; cbn [fst snd] in *.
      match goal with |- bind ?r _ = ?r' => change r' with r; destruct r as [s'| |] eqn:Er; auto end; cbn [bind].
      assert (B : 3 * ((ys - y - 1) * xs + x) + 2 < length orig).
      { rewrite Lo; pose proof (addr_lt xs ys f x (ys - y - 1) 0 Hx); unfold addr in *; lia. }
      rewrite !(vget_nth_d _ _ 0%Z) by lia; reflexivity.
    + intros x y c Hx Hy Hc; apply nth_error_nth; rewrite Hi by auto.
      do 2 f_equal; f_equal; lia.
Qed.

Lemma array_to_raw_image_spec junk im xs ys f : Repr im xs ys f ->
  (forall n, length (junk n) = n) -> (forall x y, x < xs -> y < ys -> length (f x y) = 3) ->
  exists raw, array_to_raw_image junk im = Ok raw /\ length raw = row_bytes xs * ys /\
    (forall x y c, x < xs -> y < ys -> c < 3 -> nth_error raw (addr xs (filling 4 xs) x y c) = Some (nth c (f x y) 0%Z)) /\
    (forall y j, y < ys -> 3 * xs <= j < row_bytes xs -> nth_error raw (y * row_bytes xs + j) = Some 0%Z).
Proof.
  intros R HJ H3; unfold array_to_raw_image.
  rewrite (get_width_Repr _ _ _ _ R), (get_height_Repr _ _ _ _ R); cbn [bind].
  set (fl := filling 4 xs); set (row := 3 * xs + fl).
  destruct (vscatter (grid ys row) (fun p buf => vset buf (fst p * row + snd p) 0%Z)
              (fun p => fst p * row + snd p) (fun _ => 0%Z) (junk (row * ys))) as (b & E & Lb & Hi & _); auto.
  { intros [y j] Hp; apply in_grid in Hp; cbn [fst snd] in *; rewrite HJ; nia. }
  rewrite HJ in Lb; rewrite E; cbn [bind].
  destruct (pack3 xs ys fl (fun x y c => let* px := at_ im [x; y] in vget px c)
              (fun x y c => nth c (f x y) 0%Z) b Lb) as (raw & E2 & Lr & Hi2 & Ho2).
  - intros x y c Hx Hy Hc; rewrite (at_Repr _ _ _ _ _ _ R) by auto; cbn [bind].
    apply vget_nth_d; rewrite H3; auto.
  - exists raw; split; [|split; [congruence|split; [exact Hi2|]]].
    + rewrite <- E2; apply for_list_ext; intros [y x] s Hp; cbn [fst snd].
      unfold for_range; apply for_list_ext; intros c s' Hc; destruct (at_ im [x; y]); reflexivity.
    + intros y j Hy Hj; rewrite Ho2.
      * apply (Hi (y, j)), in_grid; auto; cbn [fst snd]; unfold row in *; lia.
      * intros x y' c Hx Hy' Hc Ea; rewrite addr_row in Ea; apply row_inj in Ea; lia.
Qed.

Lemma bmp_write_spec junk im xs ys f : Repr im xs ys f ->
  (forall n, length (junk n) = n) -> (forall x y, x < xs -> y < ys -> length (f x y) = 3) ->
  (Z.of_nat (row_bytes xs) < 2 ^ 31)%Z -> (Z.of_nat ys < 2 ^ 31)%Z ->
  exists raw, bmp_write junk im =
      Ok (bmp_header (Z.of_nat xs * Z.of_nat ys * 3 + 54) (Z.of_nat xs) (Z.of_nat ys) ++ raw) /\
    length raw = row_bytes xs * ys /\
    (forall x y c, x < xs -> y < ys -> c < 3 -> nth_error raw (addr xs (filling 4 xs) x y c) = Some (nth c (f x y) 0%Z)) /\
    (forall y j, y < ys -> 3 * xs <= j < row_bytes xs -> nth_error raw (y * row_bytes xs + j) = Some 0%Z).
Proof.
  intros R HJ H3 Bx By; destruct (array_to_raw_image_spec junk im xs ys f R HJ H3) as (raw & E & L & Hp & Hf).
  exists raw; split; auto; unfold bmp_write; rewrite E; cbn [bind].
  rewrite (get_width_Repr _ _ _ _ R), (get_height_Repr _ _ _ _ R); cbn [bind].
  destruct (Z.leb_spec (2 ^ 31) (Z.of_nat (row_bytes xs))); [lia|].
  destruct (Z.leb_spec (2 ^ 31) (Z.of_nat ys)); [lia|]; cbn [orb].
  rewrite firstn_all2 by lia; reflexivity.
Qed.

Lemma header_length fs xs ys : length (bmp_header fs xs ys) = 54.
Proof. reflexivity. Qed.

(** a file whose header gives extents [X], [Y]: the general reader theorem *)
Lemma bmp_read_spec alloc junk file X Y xs ys :
  Forall is_byte file -> (forall n, alloc n = true) -> (forall n, length (junk n) = n) ->
  26 <= length file ->
  s32 (word file 18) = X -> s32 (word file 22) = Y ->
  (0 <= X)%Z -> (Y <> -1)%Z -> (Y <> - 2 ^ 31)%Z ->
  xs = Z.to_nat X -> ys = Z.to_nat (Z.abs Y) -> (Z.of_nat (row_bytes xs) < 2 ^ 31)%Z ->
  (Z.of_nat (row_bytes xs * ys) < 2 ^ 31)%Z ->
  exists im, bmp_read alloc junk file = Ok im /\
    Repr im xs ys (fun x y => let r := if (Y <? 0)%Z then ys - 1 - y else y in
                     [stored file xs x r 0; stored file xs x r 1; stored file xs x r 2]).
Proof.
  intros F HA HJ L EX EY PX NY NY' Exs Eys Br B; unfold bmp_read.
  rewrite !le32_word by lia; cbn [bind]; rewrite EX, EY.
  destruct (Z.eqb_spec X (-1)); [lia|]; destruct (Z.eqb_spec Y (-1)); [lia|]; cbn [orb].
  destruct (Z.ltb_spec X 0); [lia|]; destruct (Z.eqb_spec Y (- 2 ^ 31)); [lia|].
  rewrite <- Exs, <- Eys.
  destruct (Z.leb_spec (2 ^ 31) (Z.of_nat (row_bytes xs))); [lia|].
  destruct (Z.leb_spec (2 ^ 31) (Z.of_nat (row_bytes xs * ys))); [lia|]; cbn [orb]; rewrite HA; cbn [negb].
  destruct (bmp_read_detail_spec alloc file xs ys F HA) as (data & E & Ld & Hd); rewrite E; cbn [bind].
  destruct (Z.ltb_spec Y 0) as [Neg|Pos].
  - destruct (flip_rows_spec xs ys data (junk (row_bytes xs * ys)) Ld (HJ _)) as (dest & Ed & Ldd & Hdd).
    rewrite Ed; cbn [bind].
    destruct (raw_image_to_array_spec xs ys dest Ldd) as (im & Ei & Ri); exists im; split; auto.
    eapply Repr_ext; [exact Ri|]; intros x y Hx Hy; cbv beta zeta; rewrite !Hdd, !Hd by lia; reflexivity.
  - destruct (raw_image_to_array_spec xs ys data Ld) as (im & Ei & Ri); exists im; split; auto.
    eapply Repr_ext; [exact Ri|]; intros x y Hx Hy; cbv beta zeta; rewrite !Hd by lia; reflexivity.
Qed.

(** ** pixel data of 2 GiB and more *)
Lemma wrap32_small k : (Z.of_nat k < 2 ^ 32)%Z -> wrap32 k = k.
Proof. intros H; unfold wrap32, u32; rewrite Z.mod_small by lia; lia. Qed.
Lemma wrap32_le k : wrap32 k <= k.
Proof. unfold wrap32, u32; pose proof (Z.mod_le (Z.of_nat k) (2 ^ 32)); lia. Qed.
Lemma wrap32_Z k : Z.of_nat (wrap32 k) = (Z.of_nat k mod 2 ^ 32)%Z.
Proof. unfold wrap32, u32; pose proof (Z.mod_pos_bound (Z.of_nat k) (2 ^ 32)); lia. Qed.

(** byte [k] of the pixel data of a 24-bit file: from the file; what the file lacks is 255 as far as the filling loop gets
    and the content of fresh memory after that *)
Definition delivered (junk : nat -> list Z) (file : list Z) (n k : nat) : Z :=
  let j := Z.to_nat (word file 10) + k in
  if j <? length file then nth j file 0%Z
  else if (Z.of_nat k <? Z.of_nat n mod 2 ^ 32)%Z then 255%Z else nth k (junk n) 0%Z.

Lemma fill_nth junk n k : length (junk n) = n -> k < n ->
  nth k (repeat 255%Z (wrap32 n) ++ skipn (wrap32 n) (junk n)) 0%Z =
  if (Z.of_nat k <? Z.of_nat n mod 2 ^ 32)%Z then 255%Z else nth k (junk n) 0%Z.
Proof.
  intros L H; rewrite <- wrap32_Z; destruct (Z.ltb_spec (Z.of_nat k) (Z.of_nat (wrap32 n))) as [C|C].
  - rewrite app_nth1 by (rewrite repeat_length; lia); apply nth_repeat_lt; lia.
  - rewrite app_nth2, repeat_length by (rewrite repeat_length; lia).
    apply nth_error_nth; rewrite nth_error_skipn'; replace (wrap32 n + (k - wrap32 n)) with k by lia.
    apply nth_error_nth'; lia.
Qed.

Lemma bmp_read_wide_24 alloc junk file X Y xs ys :
  (forall n, alloc n = true) -> (forall n, length (junk n) = n) ->
  54 <= length file -> (nth 28 file 0 + nth 29 file 0 * 2 ^ 8 = 24)%Z ->
  (0 <= X < 2 ^ 31)%Z -> (0 <= Y < 2 ^ 31)%Z -> xs = Z.to_nat X -> ys = Z.to_nat Y ->
  (Z.of_nat (row_bytes xs) < 2 ^ 31)%Z -> (Z.of_nat (row_bytes xs * ys) mod 2 ^ 32 < 2 ^ 31)%Z ->
  exists im, bmp_read_wide alloc junk file X Y = Ok im /\
    Repr im xs ys (fun x y => map (fun c => delivered junk file (row_bytes xs * ys) (addr xs (filling 4 xs) x y c)) [0; 1; 2]).
Proof.
  intros HA HJ L E24 BX BY Exs Eys Br Bn; unfold bmp_read_wide.
  replace (Z.to_nat (u32 X)) with xs by (unfold u32; rewrite Z.mod_small by lia; auto).
  replace (Z.to_nat (Z.abs Y)) with ys by lia.
  rewrite (wrap32_small (row_bytes xs)) by lia; set (n := row_bytes xs * ys) in *; rewrite HA; cbn [negb].
  rewrite wrap32_Z; destruct (Z.leb_spec (2 ^ 31) (Z.of_nat n mod 2 ^ 32)) as [C|_]; [lia|].
  set (buf := repeat 255%Z (wrap32 n) ++ skipn (wrap32 n) (junk n)).
  assert (Lb : length buf = n) by (unfold buf; rewrite app_length, repeat_length, skipn_length, HJ; pose proof (wrap32_le n); lia).
  assert (E : bmp_read_detail_wide alloc file X ys buf = Ok (fread_at file (Z.to_nat (word file 10)) n buf)).
  { unfold bmp_read_detail_wide.
    replace (Z.to_nat (u32 X)) with xs by (unfold u32; rewrite Z.mod_small by lia; auto).
    destruct (Nat.ltb_spec (length file) 54); [lia|].
    rewrite !(vget_nth_d _ _ 0%Z) by lia; cbn [bind]; rewrite (le32_word file 10) by lia; cbn [bind].
    rewrite E24, Z.eqb_refl.
    destruct (Z.ltb_spec (3 * X) (- 2 ^ 31)); [lia|].
    destruct (Z.leb_spec (2 ^ 31) (3 * X + Z.of_nat (filling 4 xs))); [lia|]; cbn [orb].
    replace ((3 * X + Z.of_nat (filling 4 xs)) * Z.of_nat ys)%Z with (Z.of_nat n)
      by (unfold n; rewrite Nat2Z.inj_mul; f_equal; lia).
    rewrite Z.mod_small; [rewrite Nat2Z.id|].
    - destruct (Nat.ltb_spec (length buf) n); [lia | reflexivity].
    - split; [lia|]; unfold n; rewrite Nat2Z.inj_mul.
      apply Z.lt_trans with (2 ^ 31 * 2 ^ 31)%Z; [apply Z.mul_lt_mono_nonneg; lia | reflexivity]. }
  rewrite E; cbn [bind]; destruct (Z.ltb_spec Y 0); [lia|]; unfold raw_image_to_array_wide.
  destruct (Z.ltb_spec X 0); [lia|]; rewrite <- Exs.
  destruct (raw_image_to_array_spec xs ys (fread_at file (Z.to_nat (word file 10)) n buf)) as (im & Ei & Ri).
  { rewrite fread_at_length; fold n; lia. }
  exists im; split; auto; eapply Repr_ext; [exact Ri|]; intros x y Hx Hy; cbn [map].
  assert (D : forall c, nth (addr xs (filling 4 xs) x y c) (fread_at file (Z.to_nat (word file 10)) n buf) 0%Z =
                delivered junk file n (addr xs (filling 4 xs) x y c)).
  { intros c; pose proof (addr_lt xs ys (filling 4 xs) x y c Hx Hy) as Ha; fold n in Ha.
    rewrite fread_at_nth by lia; unfold delivered; cbv zeta.
    destruct (Nat.ltb_spec (Z.to_nat (word file 10) + addr xs (filling 4 xs) x y c) (length file)).
    - reflexivity.
    - apply fill_nth; auto. }
  rewrite !D; reflexivity.
Qed.

(** no pixel data of which the 32-bit size is 2^31 or more can be read *)
Lemma bmp_read_wide_gap alloc junk file X Y xs ys :
  (0 < X < 2 ^ 31)%Z -> (Y <> 0)%Z -> xs = Z.to_nat X -> ys = Z.to_nat (Z.abs Y) ->
  (Z.of_nat (row_bytes xs) < 2 ^ 31)%Z -> (2 ^ 31 <= Z.of_nat (row_bytes xs * ys) mod 2 ^ 32)%Z ->
  bmp_read_wide alloc junk file X Y = UB.
Proof.
  intros BX BY Exs Eys Br Bn; unfold bmp_read_wide.
  replace (Z.to_nat (u32 X)) with xs by (unfold u32; rewrite Z.mod_small by lia; auto).
  rewrite <- Eys, (wrap32_small (row_bytes xs)) by lia.
  destruct (alloc (row_bytes xs * ys)); cbn [negb].
  - rewrite wrap32_Z; destruct (Z.leb_spec (2 ^ 31) (Z.of_nat (row_bytes xs * ys) mod 2 ^ 32)); [reflexivity | lia].
  - unfold raw_image_to_array_wide; destruct (Z.ltb_spec X 0); [lia|].
    apply raw_image_to_array_null; lia.
Qed.

Lemma bmp_read_is_wide alloc junk file : 26 <= length file ->
  let X := s32 (word file 18) in let Y := s32 (word file 22) in
  let w := Z.to_nat X in let h := Z.to_nat (Z.abs Y) in
  (X <> -1)%Z -> (Y <> -1)%Z -> (Y <> - 2 ^ 31)%Z ->
  (X < 0)%Z \/ (2 ^ 31 <= Z.of_nat (row_bytes w))%Z \/ (2 ^ 31 <= Z.of_nat (row_bytes w * h))%Z ->
  bmp_read alloc junk file = bmp_read_wide alloc junk file X Y.
Proof.
  intros L X Y w h NX NY NY' C; unfold bmp_read; rewrite !le32_word by lia; cbn [bind]; fold X Y.
  destruct (Z.eqb_spec X (-1)); [lia|]; destruct (Z.eqb_spec Y (-1)); [lia|]; cbn [orb].
  destruct (Z.eqb_spec Y (- 2 ^ 31)); [lia|]; fold w h.
  destruct (Z.ltb_spec X 0); [reflexivity|].
  destruct (Z.leb_spec (2 ^ 31) (Z.of_nat (row_bytes w))); [reflexivity|].
  destruct (Z.leb_spec (2 ^ 31) (Z.of_nat (row_bytes w * h))); [reflexivity|lia].
Qed.

(** words of a written header *)
Lemma header_word_18 fs xs ys rest : (0 <= xs < 2 ^ 32)%Z -> word (bmp_header fs xs ys ++ rest) 18 = xs.
Proof. intros H; unfold word, bmp_header; cbn [app nth Nat.add]; apply byte_le32; auto. Qed.
Lemma header_word_22 fs xs ys rest : (0 <= ys < 2 ^ 32)%Z -> word (bmp_header fs xs ys ++ rest) 22 = ys.
Proof. intros H; unfold word, bmp_header; cbn [app nth Nat.add]; apply byte_le32; auto. Qed.
Lemma header_word_2 fs xs ys rest : (0 <= fs < 2 ^ 32)%Z -> word (bmp_header fs xs ys ++ rest) 2 = fs.
Proof. intros H; unfold word, bmp_header; cbn [app nth Nat.add]; apply byte_le32; auto. Qed.
Lemma header_word_10 fs xs ys rest : word (bmp_header fs xs ys ++ rest) 10 = 54%Z.
Proof. reflexivity. Qed.

Lemma header_bytes fs xs ys : Forall is_byte (bmp_header fs xs ys).
Proof.
  unfold bmp_header; repeat (constructor; [first [apply byte_range | unfold is_byte; lia]|]); constructor.
Qed.

Lemma nth_app_skip {A} (l r : list A) k d : nth (length l + k) (l ++ r) d = nth k r d.
Proof. rewrite app_nth2 by lia; f_equal; lia. Qed.

Lemma stored_written fs xs ys rest x r c : (0 <= xs)%Z ->
  stored (bmp_header fs xs ys ++ rest) (Z.to_nat xs) x r c =
  nth (addr (Z.to_nat xs) (filling 4 (Z.to_nat xs)) x r c) rest 255%Z.
Proof.
  intros H; unfold stored; rewrite app_length, header_length.
  destruct (Nat.ltb_spec (54 + length rest) 54); [lia|].
  rewrite header_word_10.
  change (nth 28 (bmp_header fs xs ys ++ rest) 0%Z) with 24%Z.
  change (nth 29 (bmp_header fs xs ys ++ rest) 0%Z) with 0%Z.
  cbv zeta; change (24 + 0 * 2 ^ 8 =? 24)%Z with true; cbv iota.
  change (Z.to_nat 54) with (length (bmp_header fs xs ys)); rewrite nth_app_skip, addr_row, row_bytes_stride; f_equal; lia.
Qed.

Lemma bmp_round_trip alloc junk junk' im xs ys f : Repr im xs ys f ->
  (forall n, alloc n = true) -> (forall n, length (junk n) = n) -> (forall n, length (junk' n) = n) ->
  (forall x y, x < xs -> y < ys -> length (f x y) = 3 /\ Forall is_byte (f x y)) ->
  (Z.of_nat (row_bytes xs * ys) mod 2 ^ 32 < 2 ^ 31)%Z -> (Z.of_nat (row_bytes xs) < 2 ^ 31)%Z -> (Z.of_nat ys < 2 ^ 31)%Z ->
  exists file im', bmp_write junk im = Ok file /\ bmp_read alloc junk' file = Ok im' /\ Repr im' xs ys f.
Proof.
  intros R HA HJ HJ' H3 B Bx By.
  destruct (bmp_write_spec junk im xs ys f R HJ) as (raw & E & L & Hp & Hf); auto.
  { intros x y Hx Hy; apply H3; auto. }
  set (fs := (Z.of_nat xs * Z.of_nat ys * 3 + 54)%Z) in *.
  set (file := bmp_header fs (Z.of_nat xs) (Z.of_nat ys) ++ raw) in *.
  assert (Xb : (0 <= Z.of_nat xs < 2 ^ 31)%Z) by lia.
  assert (FB : Forall is_byte file).
  { unfold file; apply Forall_app; split; [apply header_bytes|].
    apply Forall_forall; intros b Hb; apply In_nth_error in Hb as [k Ek].
    assert (Hk : k < row_bytes xs * ys) by (rewrite <- L; apply nth_error_Some; congruence).
    set (rb := row_bytes xs) in *.
    assert (Pr : rb <> 0) by (intros Z0; rewrite Z0 in Hk; lia).
    pose proof (Nat.div_mod k rb Pr) as Dk; pose proof (Nat.mod_upper_bound k rb Pr) as Mk.
    assert (Hy : k / rb < ys) by (apply Nat.div_lt_upper_bound; auto).
    rewrite (Nat.mul_comm rb) in Dk; set (y := k / rb) in *; set (j := k mod rb) in *; clearbody y j.
    destruct (Nat.lt_ge_cases j (3 * xs)) as [Hj|Hj].
    - assert (Ek' : nth_error raw (addr xs (filling 4 xs) (j / 3) y (2 - j mod 3)) = Some b).
      { rewrite <- Ek, addr_row, Dk; f_equal; f_equal.
        pose proof (Nat.div_mod j 3); pose proof (Nat.mod_upper_bound j 3); lia. }
      assert (Hx : j / 3 < xs) by (apply Nat.div_lt_upper_bound; lia).
      rewrite Hp in Ek' by (auto; lia).
      injection Ek' as <-; destruct (H3 (j / 3) y Hx Hy) as [_ HF]; apply nth_byte; exact HF.
    - rewrite Dk, Hf in Ek by (auto; unfold rb in *; lia); injection Ek as <-; unfold is_byte; lia. }
  assert (Lf : 54 <= length file) by (unfold file; rewrite app_length, header_length; lia).
  assert (EX : s32 (word file 18) = Z.of_nat xs) by (unfold file; rewrite header_word_18 by lia; apply s32_small; lia).
  assert (EY : s32 (word file 22) = Z.of_nat ys) by (unfold file; rewrite header_word_22 by lia; apply s32_small; lia).
  destruct (Z.lt_ge_cases (Z.of_nat (row_bytes xs * ys)) (2 ^ 31)) as [Sm|Lg].
  - destruct (bmp_read_spec alloc junk' file (Z.of_nat xs) (Z.of_nat ys) xs ys) as (im' & E' & R'); auto; try lia.
    exists file, im'; repeat split; try apply R'; auto.
    intros x y Hx Hy; destruct R' as (_ & _ & R'); rewrite R' by auto; f_equal; cbv zeta.
    destruct (Z.ltb_spec (Z.of_nat ys) 0); [lia|].
    assert (S : forall c, c < 3 -> stored file xs x y c = nth c (f x y) 0%Z).
    { intros c Hc; unfold file; rewrite <- (Nat2Z.id xs) at 2; rewrite stored_written by lia.
      rewrite Nat2Z.id; apply nth_error_nth, Hp; auto. }
    rewrite !S by lia; destruct (H3 x y Hx Hy) as [L3 _].
    apply length3 in L3 as (a & b & c & ->); reflexivity.
  - assert (EW : bmp_read alloc junk' file = bmp_read_wide alloc junk' file (Z.of_nat xs) (Z.of_nat ys)).
    { rewrite <- EX at 1; rewrite <- EY at 1; apply bmp_read_is_wide; rewrite ?EX, ?EY; try lia.
      right; right; rewrite Nat2Z.id; replace (Z.to_nat (Z.abs (Z.of_nat ys))) with ys by lia; auto. }
    destruct (bmp_read_wide_24 alloc junk' file (Z.of_nat xs) (Z.of_nat ys) xs ys) as (im' & E' & R'); auto; try lia.
    exists file, im'; rewrite EW; repeat split; try apply R'; auto.
    intros x y Hx Hy; destruct R' as (_ & _ & R'); rewrite R' by auto; f_equal; cbn [map].
    assert (S : forall c, c < 3 -> delivered junk' file (row_bytes xs * ys) (addr xs (filling 4 xs) x y c) = nth c (f x y) 0%Z).
    { intros c Hc; unfold delivered; cbv zeta; unfold file at 1 2 3 4; rewrite header_word_10.
      pose proof (addr_lt xs ys (filling 4 xs) x y c Hx Hy) as Ha.
      change (Z.to_nat 54) with (length (bmp_header fs (Z.of_nat xs) (Z.of_nat ys))); rewrite nth_app_skip, app_length.
      rewrite (proj2 (Nat.ltb_lt _ _)) by lia; apply nth_error_nth, Hp; auto. }
    rewrite !S by lia; destruct (H3 x y Hx Hy) as [L3 _].
    apply length3 in L3 as (a & b & c & ->); reflexivity.
Qed.

(** ** files of doubles *)
Lemma le32_header_18 fs xs ys : (0 <= xs < 2 ^ 31)%Z -> le32 (bmp_header fs xs ys) 18 = Ok xs.
Proof.
  intros H; rewrite le32_word by (rewrite header_length; lia).
  rewrite <- (app_nil_r (bmp_header fs xs ys)), header_word_18 by lia; reflexivity.
Qed.
Lemma le32_header_22 fs xs ys : (0 <= ys < 2 ^ 31)%Z -> le32 (bmp_header fs xs ys) 22 = Ok ys.
Proof.
  intros H; rewrite le32_word by (rewrite header_length; lia).
  rewrite <- (app_nil_r (bmp_header fs xs ys)), header_word_22 by lia; reflexivity.
Qed.

Lemma dround_trip {A} (zero : A) junk im xs ys f : Repr im xs ys f ->
  (forall n, length (junk n) = n) ->
  (Z.of_nat ((xs + 8) * ys) < 2 ^ 31)%Z -> (Z.of_nat (xs + 8) < 2 ^ 31)%Z -> (Z.of_nat ys < 2 ^ 31)%Z ->
  exists h cells im', dwrite junk im = Ok (h, cells) /\ length cells = (xs + filling 8 xs) * ys /\
    dread zero h cells = Ok im' /\ Repr im' xs ys f.
Proof.
  intros R HJ B Bx By; unfold dwrite, darray_to_raw.
  rewrite (get_width_Repr _ _ _ _ R), (get_height_Repr _ _ _ _ R); cbn [bind].
  set (fl := filling 8 xs).
  destruct (vscatter (grid ys xs) (fun p buf => let* v := at_ im [snd p; fst p] in vset buf (fst p * xs + snd p + fst p * fl) v)
              (fun p => fst p * xs + snd p + fst p * fl) (fun p => f (snd p) (fst p)) (junk ((xs + fl) * ys)))
    as (raw & E & L & Hi & _).
  - intros [y x] s Hp _; apply in_grid in Hp as [Hy Hx]; cbn [fst snd] in *.
    rewrite (at_Repr _ _ _ _ _ _ R) by auto; reflexivity.
  - intros [y x] Hp; apply in_grid in Hp as [Hy Hx]; cbn [fst snd] in *; rewrite HJ.
    assert ((xs + fl) * (y + 1) <= (xs + fl) * ys) by (apply Nat.mul_le_mono_l; lia); lia.
  - intros [y x] [y' x'] Hp Hp' Ea; apply in_grid in Hp as [Hy Hx], Hp' as [Hy' Hx']; cbn [fst snd] in *.
    assert (Er : y * (xs + fl) + x = y' * (xs + fl) + x') by lia.
    apply row_inj in Er as [-> ->]; auto; lia.
  - rewrite HJ in L.
    match goal with |- context [for_list _ ?b (junk _)] =>
      replace (for_list (grid ys xs) b (junk ((xs + fl) * ys))) with (Ok raw) by (rewrite <- E; reflexivity) end.
    cbn [bind].
    destruct (Z.leb_spec (2 ^ 31) (Z.of_nat (xs + 8))); [lia|].
    destruct (Z.leb_spec (2 ^ 31) (Z.of_nat ys)); [lia|]; cbn [orb].
    rewrite firstn_all2 by lia.
    do 2 eexists.
    destruct (overlay_all (grid ys xs) (fun p out => let* v := vget raw (fst p * xs + snd p + fst p * fl) in
                 at_set out [snd p; fst p] v) (fun p => snd p) (fun p => fst p) (image_sizes zero [xs; ys]) xs ys f)
      as (im' & E' & R').
    + reflexivity.
    + apply Repr_sizes.
    + intros [y x] s Hp D Ls; pose proof (Hi _ Hp) as Hv; apply in_grid in Hp as [Hy Hx]; cbn [fst snd] in *.
      rewrite (vget_ok _ _ _ Hv); cbn [bind]; apply (at_set2_ok s xs ys); auto.
    + intros [y x] Hp; apply in_grid in Hp; cbn [fst snd] in *; tauto.
    + intros x y Hx Hy; exists (y, x); rewrite in_grid; auto.
    + exists im'; split; [reflexivity|]; split; [auto|]; split; auto.
      unfold dread; rewrite le32_header_18, le32_header_22 by lia; cbn [bind].
      rewrite !s32_small by lia.
      destruct (Z.eqb_spec (Z.of_nat xs) (-1)); [lia|]; destruct (Z.eqb_spec (Z.of_nat ys) (-1)); [lia|].
      destruct (Z.ltb_spec (Z.of_nat xs) 0); [lia|]; destruct (Z.ltb_spec (Z.of_nat ys) 0); [lia|].
      destruct (Z.leb_spec (2 ^ 31) (Z.of_nat xs * Z.of_nat ys)); [nia|].
      destruct (Z.leb_spec (2 ^ 31) ((Z.of_nat xs + 8) * Z.of_nat ys)); [nia|]; cbn [orb].
      rewrite !Nat2Z.id; fold fl; rewrite firstn_all2 by lia; exact E'.
Qed.

Lemma hround_trip {A} (zero : A) junk im xs ys f : Repr im xs ys f ->
  (forall n, length (junk n) = n) -> (forall x y, x < xs -> y < ys -> length (f x y) = 3) ->
  (Z.of_nat ((3 * xs + 8) * ys) < 2 ^ 31)%Z -> (Z.of_nat (3 * xs + 8) < 2 ^ 31)%Z -> (Z.of_nat ys < 2 ^ 31)%Z ->
  exists h cells im', hwrite junk im = Ok (h, cells) /\ length cells = (3 * xs + filling 8 xs) * ys /\
    hread zero h cells = Ok im' /\ Repr im' xs ys f.
Proof.
  intros R HJ H3 B Bx By; unfold hwrite, harray_to_raw.
  rewrite (get_width_Repr _ _ _ _ R), (get_height_Repr _ _ _ _ R); cbn [bind].
  set (fl := filling 8 xs).
  destruct (pack3 xs ys fl (fun x y c => let* px := at_ im [x; y] in vget px c)
              (fun x y c => nth c (f x y) zero) (junk ((3 * xs + fl) * ys)) (HJ _)) as (raw & E & L & Hi & _).
  - intros x y c Hx Hy Hc; rewrite (at_Repr _ _ _ _ _ _ R) by auto; cbn [bind].
    apply vget_nth_d; rewrite H3; auto.
  - rewrite HJ in L.
    match goal with |- context [for_list _ ?b (junk _)] =>
      replace (for_list (grid ys xs) b (junk ((3 * xs + fl) * ys))) with (Ok raw) end.
    2: { rewrite <- E; apply for_list_ext; intros [y x] s _; cbn [fst snd].
         unfold for_range; apply for_list_ext; intros c s' Hc; destruct (at_ im [x; y]); reflexivity. }
    cbn [bind].
    destruct (Z.leb_spec (2 ^ 31) (Z.of_nat (3 * xs + 8))); [lia|].
    destruct (Z.leb_spec (2 ^ 31) (Z.of_nat ys)); [lia|]; cbn [orb].
    rewrite firstn_all2 by lia.
    do 2 eexists.
    destruct (unpack3 zero xs ys (fun x y c => vget raw (addr xs fl x y c)) (fun x y c => nth c (f x y) zero))
      as (im' & E' & R').
    + intros x y c Hx Hy Hc; apply vget_ok, Hi; auto.
    + exists im'; split; [reflexivity|]; split; [auto|]; split.
      2: { eapply Repr_ext; [exact R'|]; intros x y Hx Hy; cbv beta.
           pose proof (H3 x y Hx Hy) as L3; apply length3 in L3 as (a & b & c & ->); reflexivity. }
      unfold hread; rewrite le32_header_18, le32_header_22 by lia; cbn [bind].
      rewrite !s32_small by lia.
      destruct (Z.eqb_spec (Z.of_nat xs) (-1)); [lia|]; destruct (Z.eqb_spec (Z.of_nat ys) (-1)); [lia|].
      destruct (Z.ltb_spec (Z.of_nat xs) 0); [lia|]; destruct (Z.ltb_spec (Z.of_nat ys) 0); [lia|].
      destruct (Z.leb_spec (2 ^ 31) (Z.of_nat xs * Z.of_nat ys * 3)); [nia|].
      destruct (Z.leb_spec (2 ^ 31) ((Z.of_nat xs * 3 + 8) * Z.of_nat ys)); [nia|]; cbn [orb].
      rewrite !Nat2Z.id; fold fl; rewrite firstn_all2 by lia; exact E'.
Qed.
