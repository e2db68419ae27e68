(** CropProofs.v - split/concat, subimage, split_overlap, resize_nearest_neighbor. *)
From Verif Require Import Base ImageModel ImageFacts IndexModel ImageProofs GeomModel GeomProofs PadProofs.
From Coq Require Import ZifyBool ZifyNat.
Ltac Zify.zify_post_hook ::= Z.div_mod_to_equations.

Lemma mapM_Forall2 {A B} (f : A -> res B) (P : A -> B -> Prop) l :
  (forall a, In a l -> exists b, f a = Ok b /\ P a b) ->
  exists bs, mapM f l = Ok bs /\ Forall2 P l bs.
Proof.
  induction l as [|a l IH]; intros H; simpl.
  - exists []; split; auto.
  - destruct (H a) as (b & E & Hb); [simpl; auto|]; rewrite E; simpl.
    destruct IH as (bs & E' & HF); [intros; apply H; simpl; auto|].
    rewrite E'; simpl; eexists; split; [reflexivity|]; constructor; auto.
Qed.

Lemma Forall2_length {A B} (P : A -> B -> Prop) l1 l2 : Forall2 P l1 l2 -> length l1 = length l2.
Proof. intros H; induction H; simpl; auto. Qed.

Lemma Forall2_nth {A B} (P : A -> B -> Prop) l1 l2 k a :
  Forall2 P l1 l2 -> nth_error l1 k = Some a -> exists b, nth_error l2 k = Some b /\ P a b.
Proof.
  intros H; revert k; induction H as [|x y l1 l2 Hxy H IH]; intros [|k] E; simpl in *; try discriminate.
  - injection E as ->; eauto.
  - eauto.
Qed.

Lemma Forall2_seq_cons {B} (P : nat -> B -> Prop) k n b l :
  Forall2 P (seq k n) (b :: l) -> exists m, n = S m /\ P k b /\ Forall2 P (seq (S k) m) l.
Proof.
  destruct n as [|m]; simpl; intros H; inversion H; subst; eauto.
Qed.

Section Crop.
  Context {A : Type}.
  Variable d : A.
  Variable sg : nat -> nat -> list (nat * nat).
  Hypothesis Hsg : sched_ok sg.
  Implicit Types im o : image A.

  Lemma block_bounds n seg b i : 0 < seg -> b = n / seg -> i < seg -> 0 < b ->
    i * b <= (i + 1) * b - 1 /\ (i + 1) * b - 1 < n /\ (i + 1) * b - 1 - i * b + 1 = b.
  Proof.
    intros Hs -> Hi Hb.
    assert (seg * (n / seg) <= n) by (apply Nat.mul_div_le; lia).
    assert ((i + 1) * (n / seg) <= seg * (n / seg)) by (apply Nat.mul_le_mono_r; lia).
    assert ((i + 1) * (n / seg) = i * (n / seg) + n / seg) by lia.
    lia.
  Qed.

  (** every cell of a split holds its block *)
  Lemma split_Repr im w h f xs ys :
    Repr im w h f -> 0 < xs -> 0 < ys -> 0 < w / xs -> 0 < h / ys -> fits w -> fits h ->
    exists cells, split d sg im xs ys = Ok cells /\
      Forall2 (fun y row =>
        Forall2 (fun x cell => Repr cell (w / xs) (h / ys)
                   (fun a b => f (x * (w / xs) + a) (y * (h / ys) + b))) (seq 0 xs) row) (seq 0 ys) cells.
  Proof.
    intros R Hxs Hys Hbx Hby Fw Fh; unfold split; dims2 R.
    unfold udiv; destruct (Nat.eqb_spec xs 0); [lia|]; destruct (Nat.eqb_spec ys 0); [lia|]; cbn [bind].
    apply mapM_Forall2; intros y Hy; apply in_seq in Hy.
    apply mapM_Forall2; intros x Hx; apply in_seq in Hx.
    destruct (block_bounds w xs (w / xs) x) as (X1 & X2 & X3); auto; try lia.
    destruct (block_bounds h ys (h / ys) y) as (Y1 & Y2 & Y3); auto; try lia.
    rewrite !usub_le by (unfold fits in *; lia).
    destruct (subimage2_Repr d sg Hsg im w h f _ _ _ _ R X1 X2 Y1 Y2) as (o & E & Ro).
    rewrite X3, Y3 in Ro; eauto.
  Qed.

  Lemma hcat_blocks (F : nat -> nat -> A) b x0 n x y :
    0 < b -> x < n * b ->
    hcat_fun d (map (fun i => (b, fun a c => F (i * b + a) c)) (seq x0 n)) x y = F (x0 * b + x) y.
  Proof.
    intros Hb; revert x0 x; induction n as [|n IH]; intros x0 x Hx; simpl; [lia|].
    destruct (Nat.ltb_spec x b); auto.
    rewrite IH by (simpl in Hx; lia); f_equal; lia.
  Qed.

  Lemma vcat_blocks (F : nat -> nat -> A) b y0 n x y :
    0 < b -> y < n * b ->
    vcat_fun d (map (fun i => (b, fun a c => F a (i * b + c))) (seq y0 n)) x y = F x (y0 * b + y).
  Proof.
    intros Hb; revert y0 y; induction n as [|n IH]; intros y0 y Hy; simpl; [lia|].
    destruct (Nat.ltb_spec y b); auto.
    rewrite IH by (simpl in Hy; lia); f_equal; lia.
  Qed.

  Lemma sum_ext_blocks b (G : nat -> nat -> nat -> A) y0 n :
    sum_ext (map (fun i => (b, G i)) (seq y0 n)) = n * b.
  Proof. revert y0; induction n as [|n IH]; intros y0; simpl; auto. Qed.

  (** gluing a grid of blocks *)
  Lemma concat_blocks (F : nat -> nat -> A) bx by_ xs ys cells :
    0 < xs -> 0 < ys -> 0 < bx -> 0 < by_ ->
    Forall2 (fun y row =>
        Forall2 (fun x cell => Repr cell bx by_ (fun a b => F (x * bx + a) (y * by_ + b))) (seq 0 xs) row)
      (seq 0 ys) cells ->
    exists o, concat d cells = Ok o /\ Repr o (xs * bx) (ys * by_) F.
  Proof.
    intros Hxs Hys Hbx Hby HF; unfold concat.
    assert (RowOk : forall y row,
      Forall2 (fun x cell => Repr cell bx by_ (fun a b => F (x * bx + a) (y * by_ + b))) (seq 0 xs) row ->
      exists o, concat_horizontal d row = Ok o /\ Repr o (xs * bx) by_ (fun a b => F a (y * by_ + b))).
    { intros y row Hrow; destruct xs as [|n]; [lia|]; cbn [seq] in Hrow.
      inversion Hrow as [|? c0 ? row' R0 Hrow']; subst.
      destruct (concat_horizontal_Repr d c0 bx by_ _ row'
                  (map (fun i => (bx, fun a c => F (i * bx + a) (y * by_ + c))) (seq 1 n)) R0) as (o & E & Ro).
      - clear - Hrow'; revert Hrow'; generalize 1; revert n; induction row' as [|c row' IH]; intros n k H;
          inversion H as [|? ? l ? Rc Hc El]; subst.
        + destruct n; simpl in *; [constructor | discriminate].
        + destruct n; simpl in *; [discriminate|]; injection El as -> ->; constructor; auto.
      - exists o; split; auto.
        change ((bx, fun a b => F (0 * bx + a) (y * by_ + b)) ::
                map (fun i => (bx, fun a c => F (i * bx + a) (y * by_ + c))) (seq 1 n))
          with (map (fun i => (bx, fun a c => F (i * bx + a) (y * by_ + c))) (seq 0 (S n))) in Ro.
        rewrite sum_ext_blocks in Ro; eapply Repr_ext; eauto; intros a b Ha Hb; cbv beta.
        rewrite (hcat_blocks (fun a c => F a (y * by_ + c))) by auto; reflexivity. }
    assert (Rows : exists rows, mapM (concat_horizontal d) cells = Ok rows /\
              Forall2 (fun y o => Repr o (xs * bx) by_ (fun a b => F a (y * by_ + b))) (seq 0 ys) rows).
    { clear Hys; revert HF; generalize 0 at 2 3; revert ys; induction cells as [|row cells IH]; intros ys k HF.
      - inversion HF as [El|]; destruct ys; simpl in *; [|discriminate]; exists []; split; auto; constructor.
      - apply Forall2_seq_cons in HF; destruct HF as (m & -> & Hr & HF').
        destruct (RowOk k row Hr) as (o & E & Ro); simpl; rewrite E; simpl.
        destruct (IH m (S k) HF') as (rows & E' & HR); rewrite E'; simpl.
        eexists; split; [reflexivity|]; constructor; auto. }
    destruct Rows as (rows & E & HR); rewrite E; simpl.
    destruct ys as [|n]; [lia|]; cbn [seq] in HR; inversion HR as [|? r0 ? rows' R0 HR']; subst.
    destruct (concat_vertical_Repr d r0 (xs * bx) by_ _ rows'
                (map (fun i => (by_, fun a c => F a (i * by_ + c))) (seq 1 n)) R0) as (o & Eo & Ro).
    - clear - HR'; revert HR'; generalize 1; revert n; induction rows' as [|c row' IH]; intros n k H;
        inversion H as [|? ? l ? Rc Hc El]; subst.
      + destruct n; simpl in *; [constructor | discriminate].
      + destruct n; simpl in *; [discriminate|]; injection El as -> ->; constructor; auto.
    - exists o; split; auto.
      change ((by_, fun a b => F a (0 * by_ + b)) :: map (fun i => (by_, fun a c => F a (i * by_ + c))) (seq 1 n))
        with (map (fun i => (by_, fun a c => F a (i * by_ + c))) (seq 0 (S n))) in Ro.
      rewrite sum_ext_blocks in Ro; eapply Repr_ext; eauto; intros a b Ha Hb; cbv beta.
      rewrite (vcat_blocks F) by auto; reflexivity.
  Qed.

  Lemma split_concat im w h f xs ys :
    Repr im w h f -> 0 < xs -> 0 < ys -> 0 < w / xs -> 0 < h / ys -> fits w -> fits h ->
    exists cells o, split d sg im xs ys = Ok cells /\ concat d cells = Ok o /\
      Repr o (xs * (w / xs)) (ys * (h / ys)) f.
  Proof.
    intros R Hxs Hys Hbx Hby Fw Fh.
    destruct (split_Repr im w h f xs ys) as (cells & E & HF); auto.
    destruct (concat_blocks f (w / xs) (h / ys) xs ys cells) as (o & Eo & Ro); auto.
    exists cells, o; auto.
  Qed.

  Lemma split_concat_id im w h f xs ys bx by_ :
    Repr im w h f -> w = xs * bx -> h = ys * by_ -> 0 < w -> 0 < h -> fits w -> fits h ->
    exists cells, split d sg im xs ys = Ok cells /\ concat d cells = Ok im.
  Proof.
    intros R Ew Eh Hw Hh Fw Fh.
    assert (0 < xs /\ 0 < bx /\ 0 < ys /\ 0 < by_) by nia.
    assert (w / xs = bx) by (subst; rewrite Nat.mul_comm, Nat.div_mul; lia).
    assert (h / ys = by_) by (subst; rewrite Nat.mul_comm, Nat.div_mul; lia).
    destruct (split_concat im w h f xs ys) as (cells & o & E & Eo & Ro); auto; try lia.
    exists cells; split; auto; rewrite Eo; f_equal.
    apply (Repr_unique o im w h f f); auto.
    replace w with (xs * (w / xs)) by lia; replace h with (ys * (h / ys)) by lia.
    exact Ro.
  Qed.

  (** ** subimage *)
  (** position in the input of offset [o] of a crop of extent [s] centred at [c] *)
  Definition crop_pos (c s o : nat) : Z := (Z.of_nat c - Z.of_nat (s / 2) + Z.of_nat o)%Z.
  Fixpoint crop_poss (centers sizes out : list nat) : list Z :=
    match centers, sizes, out with
    | c :: cs, s :: ss, o :: os => crop_pos c s o :: crop_poss cs ss os
    | _, _, _ => []
    end.
  Definition inside (zs : list Z) (ds : list nat) : Prop :=
    Forall2 (fun z n => 0 <= z < Z.of_nat n)%Z zs ds.
  Definition insideb (zs : list Z) (ds : list nat) : bool :=
    forallb (fun zn => (0 <=? fst zn) && (fst zn <? Z.of_nat (snd zn)))%Z (combine zs ds).

  (** no wrap-around of extents: input extents at most 2^63, centre + size below 2^64 *)
  Definition crop_fits (ds sizes centers : list nat) : Prop :=
    Forall (fun n => (Z.of_nat n <= 2 ^ 63)%Z) ds /\
    Forall2 (fun c s => fits (c + s)) centers sizes.

  Lemma subimage_index_spec ds : forall sizes centers out,
    length sizes = length ds -> length centers = length ds -> crop_fits ds sizes centers ->
    in_range sizes out ->
    subimage_index (subimage_start centers sizes) out ds =
    if insideb (crop_poss centers sizes out) ds
    then Some (map Z.to_nat (crop_poss centers sizes out)) else None.
  Proof.
    induction ds as [|n ds IH]; intros sizes centers out L1 L2 [F1 F2] IR.
    - destruct sizes, centers; simpl in *; try lia; destruct out; reflexivity.
    - destruct sizes as [|s sizes], centers as [|c centers]; simpl in L1, L2; try lia.
      inversion IR as [|o ? out' ? Ho IR']; subst.
      inversion F1 as [|? ? Hn F1']; subst; inversion F2 as [|? ? ? ? Hc F2']; subst.
      unfold subimage_start; cbn [combine map subimage_index fst snd].
      fold (subimage_start centers sizes).
      rewrite IH by (auto; split; auto).
      cbn [crop_poss insideb combine forallb fst snd map].
      unfold insideb; cbn [combine forallb fst snd].
      fold (insideb (crop_poss centers sizes out') ds).
      unfold w64; rewrite Zplus_mod_idemp_l.
      change (Z.of_nat c - Z.of_nat (s / 2) + Z.of_nat o)%Z with (crop_pos c s o).
      assert (B : (- 2 ^ 63 < crop_pos c s o < 2 ^ 64)%Z).
      { unfold crop_pos, fits, two64 in *; pose proof (Nat.div_le_upper_bound s 2 s); lia. }
      destruct (Z.leb_spec 0 (crop_pos c s o)) as [P|P].
      + rewrite Z.mod_small by (unfold two64; lia).
        destruct (Z.leb_spec (Z.of_nat n) (crop_pos c s o)), (Z.ltb_spec (crop_pos c s o) (Z.of_nat n));
          try lia; cbn [andb]; auto.
        destruct (insideb (crop_poss centers sizes out') ds); reflexivity.
      + replace (crop_pos c s o mod two64)%Z with (crop_pos c s o + two64)%Z.
        2:{ symmetry; replace (crop_pos c s o) with (crop_pos c s o + two64 + (-1) * two64)%Z at 1 by lia.
            rewrite Z.mod_add by (unfold two64; lia); apply Z.mod_small; unfold two64; lia. }
        destruct (Z.leb_spec (Z.of_nat n) (crop_pos c s o + two64)%Z); [reflexivity|].
        unfold two64 in *; lia.
  Qed.

  Lemma strides_from_spec st sizes :
    strides_from st sizes = map (fun j => st * prodn (firstn j sizes)) (seq 0 (length sizes)).
  Proof.
    revert st; induction sizes as [|n sizes IH]; intros st; simpl; auto.
    f_equal; [unfold prodn; simpl; lia|]; rewrite IH, <- seq_shift, map_map.
    apply map_ext; intros j; unfold prodn; simpl; lia.
  Qed.

  Lemma crop_poss_length centers sizes out :
    length centers = length sizes -> length out = length sizes ->
    length (crop_poss centers sizes out) = length sizes.
  Proof.
    revert sizes out; induction centers as [|c centers IH]; intros [|s sizes] [|o out] H1 H2;
      simpl in *; try lia; auto.
  Qed.

  Lemma inside_b zs ds : length zs = length ds -> insideb zs ds = true <-> inside zs ds.
  Proof.
    revert ds; induction zs as [|z zs IH]; intros [|n ds] H; simpl in *; try lia.
    - split; constructor.
    - unfold insideb; simpl; fold (insideb zs ds); rewrite andb_true_iff, IH by lia; split.
      + intros [H1 H2]; constructor; auto; lia.
      + intros HF; inversion HF; subst; split; auto; lia.
  Qed.

  Lemma inside_in_range zs ds : inside zs ds -> in_range ds (map Z.to_nat zs).
  Proof. intros H; induction H; simpl; constructor; auto; lia. Qed.

  Lemma set_index_upd o k v : k < prodn (dims o) -> k < length (pix o) -> set_index o k v = Ok (im_upd o k v).
  Proof.
    intros H L; unfold set_index, count; destruct (Nat.leb_spec (prodn (dims o)) k); [lia|].
    rewrite vset_ok by exact L; reflexivity.
  Qed.

  Lemma subimage_ReprN im ds f sizes centers default :
    ReprN im ds f -> length sizes = length ds -> length centers = length ds ->
    0 < prodn sizes -> crop_fits ds sizes centers ->
    exists o, subimage d im sizes centers default = Ok o /\
      ReprN o sizes (fun out => if insideb (crop_poss centers sizes out) ds
                                then f (map Z.to_nat (crop_poss centers sizes out)) else default).
  Proof.
    intros R L1 L2 P F; unfold subimage, get_dimensionality.
    destruct R as (D & L & Hf); rewrite D, L1, L2, Nat.eqb_refl; cbn [negb orb].
    destruct (ctor_data_wf (repeat d (prodn sizes)) sizes) as [C _].
    destruct C as (out0 & E0 & D0 & P0 & W0).
    { intros C; apply (f_equal (@length A)) in C; rewrite repeat_length in C; simpl in C; lia. }
    { apply repeat_length. }
    rewrite E0; cbn [bind]; unfold count; rewrite D0.
    set (g := fun out => if insideb (crop_poss centers sizes out) ds
                         then f (map Z.to_nat (crop_poss centers sizes out)) else default).
    apply (scatter_fullN (seq 0 (prodn sizes)) _ (fun k => k) (fun k => g (unoff sizes k)) out0 sizes g).
    - exact D0.
    - rewrite W0, D0; reflexivity.
    - intros k s Hk Ds Ls; apply in_seq in Hk; destruct Hk as [_ Hk]; simpl in Hk.
      assert (EL : linear_index_to_indices_strides k (strides_from 1 sizes) sizes = Ok (unoff sizes k)).
      { pose proof (linear_index_strides_agree (mkImage sizes (pix out0)) (strides_from 1 sizes) k Hk) as G.
        cbn [dims] in G; rewrite G.
        - unfold linear_index_to_indices; rewrite lin2idx_loop_spec by (eauto using prodn_pos).
          rewrite Nat.div_1_r; reflexivity.
        - rewrite (mapM_ok _ (fun j => prodn (firstn j sizes))).
          + f_equal; rewrite strides_from_spec; apply map_ext; intros; lia.
          + intros j Hj; apply in_seq in Hj; apply (get_stride_spec (mkImage sizes (pix out0))); simpl; lia. }
      rewrite EL; cbn [bind].
      destruct (unoff_spec sizes k Hk) as [IR Ek].
      rewrite subimage_index_spec by auto.
      pose proof (crop_poss_length centers sizes (unoff sizes k)) as LC.
      rewrite (in_range_length _ _ IR) in LC; specialize (LC ltac:(lia) eq_refl).
      unfold g; destruct (insideb (crop_poss centers sizes (unoff sizes k)) ds) eqn:EI.
      + assert (IR' : in_range ds (map Z.to_nat (crop_poss centers sizes (unoff sizes k))))
          by (apply inside_in_range, inside_b; auto; lia).
        rewrite at_range_same_arity by (rewrite D; apply in_range_length, IR').
        rewrite (at_ReprN im ds f) by (auto; repeat split; auto); cbn [bind].
        apply set_index_upd; [rewrite Ds; exact Hk | rewrite Ls; exact Hk].
      + apply set_index_upd; [rewrite Ds; exact Hk | rewrite Ls; exact Hk].
    - apply seq_NoDup.
    - auto.
    - intros idx IR; exists (off sizes idx); repeat split; auto.
      + apply in_seq; pose proof (off_lt _ _ IR); lia.
      + rewrite off_unoff by exact IR; reflexivity.
  Qed.

  Lemma subimage_Repr im w h f sw sh cx cy default :
    Repr im w h f -> 0 < sw -> 0 < sh ->
    (Z.of_nat w <= 2 ^ 63)%Z -> (Z.of_nat h <= 2 ^ 63)%Z -> fits (cx + sw) -> fits (cy + sh) ->
    exists o, subimage d im [sw; sh] [cx; cy] default = Ok o /\
      Repr o sw sh (fun x y =>
        let u := crop_pos cx sw x in let v := crop_pos cy sh y in
        if (0 <=? u)%Z && (u <? Z.of_nat w)%Z && ((0 <=? v)%Z && (v <? Z.of_nat h)%Z)
        then f (Z.to_nat u) (Z.to_nat v) else default).
  Proof.
    intros R Hw Hh Bw Bh Fx Fy; apply Repr_ReprN in R.
    destruct (subimage_ReprN im [w; h] _ [sw; sh] [cx; cy] default R) as (o & E & Ro); auto.
    - rewrite prodn2; nia.
    - split; repeat constructor; auto.
    - exists o; split; auto; apply Repr_ReprN; eapply ReprN_ext; eauto.
      intros idx IR; destruct idx as [|x [|y [|z r]]]; try (apply in_range_length in IR; simpl in IR; lia).
      cbn [crop_poss nth map]; unfold insideb; cbn [combine forallb fst snd]; rewrite andb_true_r; reflexivity.
  Qed.

  Lemma subimage_arity_throws im sizes centers default :
    length sizes <> length (dims im) \/ length centers <> length (dims im) ->
    subimage d im sizes centers default = Throw RuntimeError.
  Proof.
    intros H; unfold subimage, get_dimensionality.
    destruct (Nat.eqb_spec (length sizes) (length (dims im))), (Nat.eqb_spec (length centers) (length (dims im)));
      simpl; auto; lia.
  Qed.

  (** ** split_overlap: what the code computes *)
  Lemma split_overlap_Repr im w h f xs ys ex ey bc c pad pf :
    Repr im w h f -> 0 < xs -> 0 < ys -> 0 < w / xs -> 0 < h / ys ->
    padded_image d sg im ex ey bc c = Ok pad -> Repr pad (w + 2 * ex) (h + 2 * ey) pf ->
    (Z.of_nat (w + 2 * ex) <= 2 ^ 62)%Z -> (Z.of_nat (h + 2 * ey) <= 2 ^ 62)%Z ->
    exists cells, split_overlap d sg im xs ys ex ey bc c = Ok cells /\
      Forall2 (fun y row => Forall2 (fun x cell =>
        Repr cell (w / xs + 2 * ex) (h / ys + 2 * ey) (fun a b =>
          let u := (Z.of_nat (x * (w / xs)) - Z.of_nat ex - (if Nat.even (w / xs) then 1 else 0) + Z.of_nat a)%Z in
          let v := (Z.of_nat (y * (h / ys)) - Z.of_nat ey - (if Nat.even (h / ys) then 1 else 0) + Z.of_nat b)%Z in
          if (0 <=? u)%Z && (u <? Z.of_nat (w + 2 * ex))%Z && ((0 <=? v)%Z && (v <? Z.of_nat (h + 2 * ey))%Z)
          then pf (Z.to_nat u) (Z.to_nat v) else d)) (seq 0 xs) row) (seq 0 ys) cells.
  Proof.
    intros R Hxs Hys Hbx Hby Ep Rp Bw Bh; unfold split_overlap; dims2 R.
    unfold udiv; destruct (Nat.eqb_spec xs 0); [lia|]; destruct (Nat.eqb_spec ys 0); [lia|]; cbn [bind].
    rewrite Ep; cbn [bind].
    apply mapM_Forall2; intros y Hy; apply in_seq in Hy.
    apply mapM_Forall2; intros x Hx; apply in_seq in Hx.
    destruct (block_bounds w xs (w / xs) x) as (X1 & X2 & X3); auto; try lia.
    destruct (block_bounds h ys (h / ys) y) as (Y1 & Y2 & Y3); auto; try lia.
    set (bx := w / xs) in *; set (by_ := h / ys) in *; clearbody bx by_.
    assert (bx <= w /\ by_ <= h) by nia.
    assert (x * bx + bx <= w /\ y * by_ + by_ <= h) by nia.
    assert (F : fits bx /\ fits by_) by (unfold fits, two64; lia).
    rewrite !usub_le by (try apply F; lia).
    assert (Kx : (Z.of_nat (x * bx + (bx - 1) / 2) - Z.of_nat ((bx + 2 * ex) / 2) =
                 Z.of_nat (x * bx) - Z.of_nat ex - (if Nat.even bx then 1 else 0))%Z).
    { destruct (Nat.even bx) eqn:Eb.
      - apply Nat.even_spec in Eb; destruct Eb as (q & Eq); subst bx; lia.
      - assert (Nat.odd bx = true) by (rewrite <- Nat.negb_even, Eb; reflexivity).
        apply Nat.odd_spec in H1; destruct H1 as (q & Eq); subst bx; lia. }
    assert (Ky : (Z.of_nat (y * by_ + (by_ - 1) / 2) - Z.of_nat ((by_ + 2 * ey) / 2) =
                 Z.of_nat (y * by_) - Z.of_nat ey - (if Nat.even by_ then 1 else 0))%Z).
    { destruct (Nat.even by_) eqn:Eb.
      - apply Nat.even_spec in Eb; destruct Eb as (q & Eq); subst by_; lia.
      - assert (Nat.odd by_ = true) by (rewrite <- Nat.negb_even, Eb; reflexivity).
        apply Nat.odd_spec in H1; destruct H1 as (q & Eq); subst by_; lia. }
    destruct (subimage_Repr pad _ _ pf (bx + 2 * ex) (by_ + 2 * ey)
                (x * bx + (bx - 1) / 2) (y * by_ + (by_ - 1) / 2) d Rp) as (o & E & Ro);
      try lia; try (unfold fits, two64; lia).
    exists o; split; auto; eapply Repr_ext; eauto; intros a b Ha Hb; cbv beta zeta.
    unfold crop_pos; rewrite Kx, Ky; reflexivity.
  Qed.

  (** ** resize_nearest_neighbor *)
  Lemma resize_Repr im w h f nw nh :
    Repr im w h f -> 0 < w -> 0 < h ->
    exists o, resize_nearest_neighbor d sg im nw nh = Ok o /\
      Repr o nw nh (fun x y => f (x * w / nw) (y * h / nh)).
  Proof.
    intros R Hw Hh; unfold resize_nearest_neighbor; dims2 R.
    apply (overlay_all _ _ (fun p => snd p) (fun p => fst p)).
    - reflexivity.
    - apply (Repr_sizes d).
    - intros p s Hp D L; apply (sched_in sg _ _ p Hsg) in Hp.
      rewrite (atu_Repr _ _ _ _ _ _ R) by (apply Nat.div_lt_upper_bound; nia); cbn [bind].
      apply (atu_set2_ok s _ _ _ _ _ D L); lia.
    - intros p Hp; apply (sched_in sg _ _ p Hsg) in Hp; lia.
    - intros x y Hx' Hy'; exists (y, x); split; [apply sched_in; simpl; auto; lia | simpl; lia].
  Qed.
End Crop.
