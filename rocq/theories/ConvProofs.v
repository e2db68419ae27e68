(** ConvProofs.v - lemmas about ConvModel.v *)
From Coq Require Import ZifyBool ZifyNat.
From Verif Require Import Base ImageModel ImageFacts IndexModel ImageProofs GeomModel GeomProofs PadProofs CropProofs
  PixelModel PixelProofs ConvModel BigSum.
Open Scope nat_scope.

(** ** Loops *)
Lemma zrange_empty a b : (b < a)%Z -> zrange a b = [].
Proof. intros H; unfold zrange; replace (Z.to_nat (b - a + 1)) with 0 by lia; reflexivity. Qed.

Lemma zrange_snoc a b : (a <= b + 1)%Z -> zrange a (b + 1) = zrange a b ++ [(b + 1)%Z].
Proof.
  intros H; unfold zrange; replace (Z.to_nat (b + 1 - a + 1)) with (S (Z.to_nat (b - a + 1))) by lia.
  rewrite seq_S, map_app; simpl; f_equal; f_equal; lia.
Qed.

Lemma filter_interval lo hi n :
  map Z.of_nat (filter (fun i => (lo <=? Z.of_nat i) && (Z.of_nat i <=? hi))%Z (seq 0 n)) =
  zrange (Z.max 0 lo) (Z.min (Z.of_nat n - 1) hi).
Proof.
  induction n as [|n IH].
  - rewrite zrange_empty by lia; reflexivity.
  - rewrite seq_S, filter_app, map_app, IH; cbn [filter]; rewrite Nat.add_0_l.
    destruct (Z.leb_spec lo (Z.of_nat n)); cbn [andb].
    + destruct (Z.leb_spec (Z.of_nat n) hi); cbn [map].
      * replace (Z.min (Z.of_nat n - 1) hi) with (Z.of_nat n - 1)%Z by lia.
        replace (Z.min (Z.of_nat (S n) - 1) hi) with (Z.of_nat n - 1 + 1)%Z by lia.
        rewrite zrange_snoc by lia; f_equal; f_equal; lia.
      * rewrite app_nil_r; f_equal; lia.
    + cbn [map]; rewrite app_nil_r, !zrange_empty by lia; reflexivity.
Qed.

Lemma fold_filter_skip {I S} (p : I -> bool) (F : S -> I -> S) l : forall s,
  (forall i s, In i l -> p i = false -> F s i = s) -> fold_left F (filter p l) s = fold_left F l s.
Proof.
  induction l as [|i l IH]; intros s H; simpl; auto.
  destruct (p i) eqn:E; simpl.
  - apply IH; intros; apply H; simpl; auto.
  - rewrite (H i s) by (simpl; auto); apply IH; intros; apply H; simpl; auto.
Qed.

Lemma fold_left_map {I J S} (h : J -> I) (F : S -> I -> S) l : forall s,
  fold_left F (map h l) s = fold_left (fun s j => F s (h j)) l s.
Proof. induction l as [|j l IH]; intros s; simpl; auto. Qed.

Lemma fold_pairs {I J S} (F : S -> I * J -> S) ys (xs : I -> list J) : forall s,
  fold_left F (pairs ys xs) s = fold_left (fun s y => fold_left (fun s x => F s (y, x)) (xs y) s) ys s.
Proof.
  induction ys as [|y ys IH]; intros s; simpl; auto.
  unfold pairs; simpl; fold (pairs ys xs); rewrite fold_left_app, IH, fold_left_map; reflexivity.
Qed.

Lemma fold_left_ext {I S} (F G : S -> I -> S) l : forall s,
  (forall i s, In i l -> F s i = G s i) -> fold_left F l s = fold_left G l s.
Proof.
  induction l as [|i l IH]; intros s H; simpl; auto.
  rewrite H by (simpl; auto); apply IH; intros; apply H; simpl; auto.
Qed.

Lemma nth_error_rev {A} (l : list A) k : k < length l -> nth_error (rev l) k = nth_error l (length l - 1 - k).
Proof.
  revert k; induction l as [|a l IH]; intros k H; simpl in H; [lia|].
  cbn [rev length]; destruct (Nat.lt_ge_cases k (length l)) as [L|L].
  - rewrite nth_error_app1 by (rewrite rev_length; lia); rewrite IH by lia.
    replace (S (length l) - 1 - k) with (S (length l - 1 - k)) by lia; reflexivity.
  - replace k with (length l) by lia; rewrite nth_error_app2 by (rewrite rev_length; lia).
    rewrite rev_length, Nat.sub_diag; replace (S (length l) - 1 - length l) with 0 by lia; reflexivity.
Qed.

Lemma rev_Repr {A} (y : image A) w h g : Repr y w h g -> 0 < w -> 0 < h ->
  exists yf, image_data (rev (pix y)) (dims y) = Ok yf /\ Repr yf w h (fun u v => g (w - 1 - u) (h - 1 - v)).
Proof.
  intros (D & L & H) Hw Hh; exists (mkImage (dims y) (rev (pix y))); split.
  - unfold image_data; destruct (rev (pix y)) as [|a l] eqn:E.
    + apply (f_equal (@length A)) in E; rewrite rev_length in E; simpl in E; nia.
    + rewrite <- E, rev_length, L, D, prodn2, Nat.eqb_refl; reflexivity.
  - split; [exact D|]; cbn [pix dims]; split; [rewrite rev_length; exact L|].
    intros u v Hu Hv; rewrite nth_error_rev by (rewrite L; nia).
    rewrite L; replace (w * h - 1 - (v * w + u)) with ((h - 1 - v) * w + (w - 1 - u)) by nia.
    apply H; lia.
Qed.

Lemma vgetz_nat {A} (l : list A) z k : z = Z.of_nat k -> vgetz l z = vget l k.
Proof. intros ->; unfold vgetz; destruct (Z.ltb_spec (Z.of_nat k) 0); [lia|]; rewrite Nat2Z.id; reflexivity. Qed.

Lemma wn_nat z k : z = Z.of_nat k -> fits k -> wn z = k.
Proof. intros -> F; unfold wn, w64, fits in *; rewrite Z.mod_small by lia; lia. Qed.

(** ** conv2 *)
Section Conv2.
  Context {A B C : Type} (zero : C) (add : C -> C -> C) (mul : A -> B -> C).

  (** the term of input pixel (a, b) in the convolution sum at (X, Y); kernel of extents wk, hk *)
  Definition conv_term (f : nat -> nat -> A) (g : nat -> nat -> B) (wk hk X Y : nat) (p : nat * nat) : C :=
    let (b, a) := p in
    if ((a <=? X) && (X - a <? wk)) && ((b <=? Y) && (Y - b <? hk))
    then mul (f a b) (g (X - a) (Y - b)) else zero.

  Hypothesis zero_r : forall a, add a zero = a.

  Lemma conv2_pixel_spec x yf wx hx wk hk f g X Y :
    Repr x wx hx f -> Repr yf wk hk (fun u v => g (wk - 1 - u) (hk - 1 - v)) ->
    0 < wk -> 0 < hk -> fits (wx + wk) -> fits (hx + hk) ->
    X < wx + wk - 1 -> Y < hx + hk - 1 ->
    conv2_pixel zero add mul x yf wx hx wk hk (wx + wk - 1) (Y * (wx + wk - 1) + X) =
    Ok (bsum zero add (conv_term f g wk hk X Y) (grid hx wx)).
  Proof.
    intros Rx Ry Pw Ph Fw Fh HX HY; unfold conv2_pixel.
    replace ((Y * (wx + wk - 1) + X) / (wx + wk - 1)) with Y
      by (rewrite Nat.div_add_l by lia; rewrite Nat.div_small by lia; lia).
    replace ((Y * (wx + wk - 1) + X) mod (wx + wk - 1)) with X
      by (rewrite Nat.add_comm, Nat.mod_add by lia; rewrite Nat.mod_small by lia; lia).
    rewrite <- !filter_interval.
    set (py := fun i => ((Z.of_nat Y - Z.of_nat hk + 1 <=? Z.of_nat i) && (Z.of_nat i <=? Z.of_nat Y))%Z).
    set (px := fun i => ((Z.of_nat X - Z.of_nat wk + 1 <=? Z.of_nat i) && (Z.of_nat i <=? Z.of_nat X))%Z).
    rewrite for_list_map.
    set (T := conv_term f g wk hk X Y).
    assert (Eo : forall b s, In b (filter py (seq 0 hx)) ->
       (let* x_row := loc_unchecked x [0; wn (Z.of_nat b)] in
        let* y_f_row := loc_unchecked yf [0; wn (Z.of_nat hk - 1 - Z.of_nat Y + Z.of_nat b)] in
        for_list (map Z.of_nat (filter px (seq 0 wx))) (fun x1 sum =>
          let* a := vgetz (pix x) (Z.of_nat x_row + x1) in
          let* b := vgetz (pix yf) (Z.of_nat y_f_row + (Z.of_nat wk - 1 - Z.of_nat X + x1)) in
          Ok (add sum (mul a b))) s)
       = Ok (fold_left (fun s a => add s (T (b, a))) (seq 0 wx) s)).
    { intros b s Hb; apply filter_In in Hb; destruct Hb as [Hb Pb]; apply in_seq0 in Hb.
      assert (BY : b <= Y /\ Y - b < hk) by (unfold py in Pb; lia).
      rewrite (wn_nat _ b) by (unfold fits in *; lia).
      rewrite (wn_nat _ (hk - 1 - (Y - b))) by (unfold fits in *; lia).
      rewrite loc_unchecked_ok by (rewrite (proj1 Rx); reflexivity); cbn [bind].
      rewrite loc_unchecked_ok by (rewrite (proj1 Ry); reflexivity); cbn [bind].
      rewrite (proj1 Rx), (proj1 Ry), !off2, for_list_map.
      destruct (for_list_fold (fun _ => True) (fun a s => add s (T (b, a))) (filter px (seq 0 wx))
        (fun j sum =>
          let* a := vgetz (pix x) (Z.of_nat (b * wx + 0) + Z.of_nat j) in
          let* b0 := vgetz (pix yf) (Z.of_nat ((hk - 1 - (Y - b)) * wk + 0) + (Z.of_nat wk - 1 - Z.of_nat X + Z.of_nat j)) in
          Ok (add sum (mul a b0))) s I) as [E _].
      - intros a s0 Ha _; split; auto.
        apply filter_In in Ha; destruct Ha as [Ha Pa]; apply in_seq0 in Ha.
        assert (BX : a <= X /\ X - a < wk) by (unfold px in Pa; lia).
        destruct Rx as (Dx & Lx & Hf), Ry as (Dy & Ly & Hg).
        rewrite (vgetz_nat _ _ (b * wx + a)) by lia.
        rewrite (vget_ok _ _ (f a b)) by (apply Hf; auto); cbn [bind].
        rewrite (vgetz_nat _ _ ((hk - 1 - (Y - b)) * wk + (wk - 1 - (X - a)))) by lia.
        rewrite (vget_ok _ _ (g (X - a) (Y - b))); cbn [bind].
        2:{ replace (X - a) with (wk - 1 - (wk - 1 - (X - a))) at 2 by lia.
            replace (Y - b) with (hk - 1 - (hk - 1 - (Y - b))) at 2 by lia.
            apply (Hg (wk - 1 - (X - a)) (hk - 1 - (Y - b))); lia. }
        do 2 f_equal; unfold T, conv_term.
        replace (a <=? X) with true by lia; replace (X - a <? wk) with true by lia.
        replace (b <=? Y) with true by lia; replace (Y - b <? hk) with true by lia; reflexivity.
      - rewrite E; f_equal; apply (fold_filter_skip px (fun s a => add s (T (b, a)))).
        intros a s0 Ha Pa; unfold T, conv_term; apply in_seq0 in Ha.
        replace ((a <=? X) && (X - a <? wk)) with false by (unfold px in Pa; lia); apply zero_r. }
    destruct (for_list_fold (fun _ => True) (fun b s => fold_left (fun s a => add s (T (b, a))) (seq 0 wx) s)
       (filter py (seq 0 hx)) _ zero I (fun b s Hb _ => conj (Eo b s Hb) I)) as [E _].
    rewrite E; f_equal; unfold bsum, grid; rewrite fold_pairs.
    apply (fold_filter_skip py (fun s b => fold_left (fun s a => add s (T (b, a))) (seq 0 wx) s)).
    intros b s Hb Pb; apply in_seq0 in Hb.
    assert (G : forall l s, fold_left (fun s a => add s (T (b, a))) l s = s); [|apply G].
    induction l as [|a l IH]; intros s0; simpl; auto; rewrite IH; unfold T, conv_term.
    replace ((b <=? Y) && (Y - b <? hk)) with false by (unfold py in Pb; lia).
    rewrite andb_false_r; apply zero_r.
  Qed.

  Lemma conv2_full_Repr s x y wx hx wk hk f g :
    sched1_ok s -> Repr x wx hx f -> Repr y wk hk g ->
    0 < wk -> 0 < hk -> fits (wx + wk) -> fits (hx + hk) ->
    exists o, conv2 zero add mul s x y false = Ok o /\
      Repr o (wx + wk - 1) (hx + hk - 1) (fun X Y => bsum zero add (conv_term f g wk hk X Y) (grid hx wx)).
  Proof.
    intros Hs Rx Ry Pw Ph Fw Fh; unfold conv2.
    rewrite (get_width_Repr _ _ _ _ Rx), (get_height_Repr _ _ _ _ Rx); cbn [bind].
    rewrite (get_width_Repr _ _ _ _ Ry), (get_height_Repr _ _ _ _ Ry); cbn [bind].
    rewrite !usub_le by (auto; lia).
    destruct (rev_Repr y wk hk g Ry Pw Ph) as (yf & E & Rf); rewrite E; cbn [bind].
    set (ow := wx + wk - 1); set (oh := hx + hk - 1).
    set (G := fun X Y => bsum zero add (conv_term f g wk hk X Y) (grid hx wx)).
    destruct (overlay_all (s (ow * oh))
      (fun idx out => let* sum := conv2_pixel zero add mul x yf wx hx wk hk ow idx in
                      atu_set out [idx mod ow; idx / ow] sum)
      (fun idx => idx mod ow) (fun idx => idx / ow) (image_sizes zero [ow; oh]) ow oh G) as (o & Eo & Ro).
    - reflexivity.
    - unfold image_sizes; cbn [pix]; rewrite repeat_length; apply prodn2.
    - intros i st Hi Ds Ls; apply sched1_in in Hi; auto.
      assert (NZ : ow <> 0) by (intros Z0; rewrite Z0 in Hi; simpl in Hi; lia).
      assert (Hx : i mod ow < ow) by (apply Nat.mod_upper_bound; exact NZ).
      assert (Hy : i / ow < oh) by (apply Nat.div_lt_upper_bound; auto; lia).
      assert (EP : conv2_pixel zero add mul x yf wx hx wk hk ow i = Ok (G (i mod ow) (i / ow))).
      { replace i with (i / ow * ow + i mod ow) at 1 by (rewrite Nat.mul_comm; symmetry; apply Nat.div_mod; exact NZ).
        apply (conv2_pixel_spec x yf wx hx wk hk f g (i mod ow) (i / ow)); auto. }
      rewrite EP; cbn [bind].
      apply (atu_set2_ok st ow oh); auto.
    - intros i Hi; apply sched1_in in Hi; auto.
      assert (NZ : ow <> 0) by (intros Z0; rewrite Z0 in Hi; simpl in Hi; lia).
      split; [apply Nat.mod_upper_bound; exact NZ | apply Nat.div_lt_upper_bound; auto; lia].
    - intros X Y HX HY; exists (Y * ow + X); rewrite sched1_in by exact Hs; split; [nia|split].
      + rewrite Nat.add_comm, Nat.mod_add by lia; apply Nat.mod_small; auto.
      + rewrite Nat.div_add_l by lia; rewrite Nat.div_small by lia; lia.
    - rewrite Eo; exists o; split; auto.
  Qed.

  Lemma conv2_same_is_crop s x y wx hx wk hk f g o :
    Repr x wx hx f -> Repr y wk hk g -> fits (wx + wk) -> fits (hx + hk) -> 0 < wk -> 0 < hk ->
    conv2 zero add mul s x y false = Ok o ->
    conv2 zero add mul s x y true =
    subimage zero o [wx; hx] [(wx + wk - 1) / 2; (hx + hk - 1) / 2] zero.
  Proof.
    intros Rx Ry Fw Fh Pw Ph; unfold conv2.
    rewrite (get_width_Repr _ _ _ _ Rx), (get_height_Repr _ _ _ _ Rx); cbn [bind].
    rewrite (get_width_Repr _ _ _ _ Ry), (get_height_Repr _ _ _ _ Ry); cbn [bind].
    rewrite !usub_le by (auto; lia).
    destruct (image_data (rev (pix y)) (dims y)); cbn [bind]; try discriminate.
    match goal with |- (let* _ := ?F in _) = _ -> _ => destruct F as [o'| |] end; cbn [bind]; try discriminate.
    intros E; injection E as ->; reflexivity.
  Qed.

  (** the same-size variant is the crop of extents wx x hx whose first pixel is
      ((wx + wk - 1)/2 - wx/2, ...) of the full convolution *)
  Lemma conv2_same_Repr s x y wx hx wk hk f g :
    sched1_ok s -> Repr x wx hx f -> Repr y wk hk g ->
    0 < wk -> 0 < hk -> 0 < wx -> 0 < hx -> (Z.of_nat (wx + wk) <= 2 ^ 62)%Z -> (Z.of_nat (hx + hk) <= 2 ^ 62)%Z ->
    exists o, conv2 zero add mul s x y true = Ok o /\
      Repr o wx hx (fun X Y => bsum zero add
        (conv_term f g wk hk (X + ((wx + wk - 1) / 2 - wx / 2)) (Y + ((hx + hk - 1) / 2 - hx / 2))) (grid hx wx)).
  Proof.
    intros Hs Rx Ry Pw Ph Px Py Fw Fh.
    destruct (conv2_full_Repr s x y wx hx wk hk f g) as (o & E & R); auto; try (unfold fits, two64; lia).
    rewrite (conv2_same_is_crop s x y wx hx wk hk f g o); auto; try (unfold fits, two64; lia).
    assert (D1 : (wx + wk - 1) / 2 <= wx + wk) by (apply Nat.div_le_upper_bound; lia).
    assert (D2 : (hx + hk - 1) / 2 <= hx + hk) by (apply Nat.div_le_upper_bound; lia).
    destruct (subimage_Repr zero o _ _ _ wx hx ((wx + wk - 1) / 2) ((hx + hk - 1) / 2) zero R Px Py) as (o' & E' & R');
      try (unfold fits, two64; lia).
    exists o'; split; auto; refine (Repr_ext _ _ _ _ _ R' _); intros X Y HX HY; cbv beta zeta.
    assert (Q : forall n k c, 0 < k -> c < n ->
       n / 2 <= (n + k - 1) / 2 /\ (n + k - 1) / 2 - n / 2 + c < n + k - 1).
    { clear; intros n k c Hk Hc; split; [apply Nat.div_le_mono; lia|].
      pose proof (Nat.div_mod (n + k - 1) 2); pose proof (Nat.div_mod n 2).
      pose proof (Nat.mod_upper_bound (n + k - 1) 2); pose proof (Nat.mod_upper_bound n 2); lia. }
    destruct (Q wx wk X Pw HX) as [Q1 Q2], (Q hx hk Y Ph HY) as [Q3 Q4].
    unfold crop_pos.
    set (a := (wx + wk - 1) / 2) in *; set (b := (hx + hk - 1) / 2) in *.
    set (a' := wx / 2) in *; set (b' := hx / 2) in *; clearbody a b a' b'.
    replace (Z.of_nat a - Z.of_nat a' + Z.of_nat X)%Z with (Z.of_nat (X + (a - a'))) by lia.
    replace (Z.of_nat b - Z.of_nat b' + Z.of_nat Y)%Z with (Z.of_nat (Y + (b - b'))) by lia.
    rewrite !Nat2Z.id.
    match goal with |- (if ?c then _ else _) = _ => replace c with true by lia end; reflexivity.
  Qed.

  Lemma conv2_empty_kernel_throws s x y wx hx f wk hk g b :
    Repr x wx hx f -> Repr y wk hk g -> wk * hk = 0 -> conv2 zero add mul s x y b = Throw RuntimeError.
  Proof.
    clear zero_r; intros Rx Ry Z0; unfold conv2.
    rewrite (get_width_Repr _ _ _ _ Rx), (get_height_Repr _ _ _ _ Rx); cbn [bind].
    rewrite (get_width_Repr _ _ _ _ Ry), (get_height_Repr _ _ _ _ Ry); cbn [bind].
    destruct Ry as (D & L & _).
    assert (E : pix y = []) by (destruct (pix y); auto; simpl in L; lia).
    rewrite E; reflexivity.
  Qed.
End Conv2.

(** ** commutativity over a commutative monoid of sums *)
Lemma NoDup_filter' {A} (p : A -> bool) l : NoDup l -> NoDup (filter p l).
Proof. apply NoDup_filter. Qed.

Lemma conv_sum_swap {A B C} (zero : C) add (mul : A -> B -> C) (mul' : B -> A -> C) f g wx hx wk hk X Y :
  (forall a, add a zero = a) -> (forall a b, add a b = add b a) -> (forall a b c, add a (add b c) = add (add a b) c) ->
  (forall a b, mul a b = mul' b a) ->
  bsum zero add (conv_term zero mul f g wk hk X Y) (grid hx wx) =
  bsum zero add (conv_term zero mul' g f wx hx X Y) (grid hk wk).
Proof.
  intros Z0 Co As Mc.
  set (p1 := fun p : nat * nat => ((snd p <=? X) && (X - snd p <? wk)) && ((fst p <=? Y) && (Y - fst p <? hk))).
  set (p2 := fun p : nat * nat => ((snd p <=? X) && (X - snd p <? wx)) && ((fst p <=? Y) && (Y - fst p <? hx))).
  set (t1 := fun p : nat * nat => mul (f (snd p) (fst p)) (g (X - snd p) (Y - fst p))).
  set (t2 := fun p : nat * nat => mul' (g (snd p) (fst p)) (f (X - snd p) (Y - fst p))).
  transitivity (bsum zero add (fun p => if p1 p then t1 p else zero) (grid hx wx));
    [apply bsum_ext; intros [b a] _; reflexivity|].
  transitivity (bsum zero add (fun p => if p2 p then t2 p else zero) (grid hk wk));
    [|symmetry; apply bsum_ext; intros [b a] _; reflexivity].
  rewrite !bsum_filter by exact Z0.
  set (m := fun p : nat * nat => (Y - fst p, X - snd p)).
  transitivity (bsum zero add t2 (map m (filter p1 (grid hx wx)))).
  - rewrite bsum_map; apply bsum_ext; intros [b a] Hp; apply filter_In in Hp; destruct Hp as [_ Hp].
    unfold p1 in Hp; unfold t1, t2, m; cbn [fst snd] in *.
    replace (X - (X - a)) with a by lia; replace (Y - (Y - b)) with b by lia; apply Mc.
  - apply bsum_perm; auto; apply NoDup_Permutation.
    + apply NoDup_map_inj; [|apply NoDup_filter, NoDup_grid].
      intros [b a] [b' a'] H H' E; apply filter_In in H, H'; destruct H as [_ H], H' as [_ H'].
      unfold p1, m in *; cbn [fst snd] in *; injection E as E1 E2; f_equal; lia.
    + apply NoDup_filter, NoDup_grid.
    + intros [b a]; rewrite in_map_iff, filter_In, in_grid; split.
      * intros ([b' a'] & E & H); apply filter_In in H; destruct H as [H P]; apply in_grid in H.
        unfold p1, p2, m in *; cbn [fst snd] in *; injection E as <- <-; lia.
      * intros [H P]; exists (Y - b, X - a); split.
        -- unfold p2, m in *; cbn [fst snd] in *; f_equal; lia.
        -- apply filter_In; rewrite in_grid; unfold p1, p2 in *; cbn [fst snd] in *; lia.
Qed.
