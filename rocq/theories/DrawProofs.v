(** DrawProofs.v - lemmas for C23-C25. *)
From Verif Require Import Base ImageModel ImageFacts IndexModel ImageProofs GeomModel GeomProofs DrawModel.
From Coq Require Import ZifyBool ZifyNat.
Ltac Zify.zify_post_hook ::= Z.div_mod_to_equations.

(** ** painting loops *)
Section Paint.
  Context {A : Type}.
  Implicit Types im s : image A.

  (** a loop that writes [v] at the targets of the indices satisfying [c] *)
  Lemma paint {I} (l : list I) (body : I -> image A -> res (image A)) (c : I -> bool) (qx qy : I -> nat) v :
    forall im w h f,
    Repr im w h f ->
    (forall i s, In i l -> dims s = [w; h] -> length (pix s) = w * h ->
       body i s = if c i then Ok (im_upd s (qy i * w + qx i) v) else Ok s) ->
    (forall i, In i l -> c i = true -> qx i < w /\ qy i < h) ->
    exists o, for_list l body im = Ok o /\
      Repr o w h (fun x y => if existsb (fun i => c i && ((x =? qx i) && (y =? qy i))) l then v else f x y).
  Proof.
    induction l as [|i l IH]; intros im w h f R Hb Hq.
    - exists im; split; auto.
    - cbn [for_list]; destruct R as (D & L & H).
      rewrite (Hb i im) by (simpl; auto).
      assert (R : Repr im w h f) by (repeat split; auto).
      destruct (c i) eqn:Ec; cbn [bind].
      + destruct (Hq i) as [Qx Qy]; simpl; auto.
        destruct (IH _ _ _ _ (im_upd_Repr im w h f (qx i) (qy i) v R Qx Qy)) as (o & E & Ro).
        * intros; apply Hb; simpl; auto.
        * intros; apply Hq; simpl; auto.
        * exists o; split; auto; eapply Repr_ext; eauto; intros x y Hx Hy; cbn [existsb]; rewrite Ec; cbn [andb].
          destruct (existsb _ l); [rewrite orb_true_r; reflexivity|]; rewrite orb_false_r; reflexivity.
      + destruct (IH _ _ _ _ R) as (o & E & Ro).
        * intros; apply Hb; simpl; auto.
        * intros; apply Hq; simpl; auto.
        * exists o; split; auto; eapply Repr_ext; eauto; intros x y Hx Hy; cbn [existsb]; rewrite Ec; reflexivity.
  Qed.

  (** the painted pixels, as a set *)
  Lemma Repr_paint_iff s w h f v (P Q : nat -> nat -> bool) :
    Repr s w h (fun x y => if P x y then v else f x y) ->
    (forall x y, x < w -> y < h -> P x y = true <-> Q x y = true) ->
    Repr s w h (fun x y => if Q x y then v else f x y).
  Proof.
    intros R H; eapply Repr_ext; eauto; intros x y Hx Hy; cbv beta.
    specialize (H x y Hx Hy); destruct (P x y), (Q x y); auto; destruct H as [H1 H2];
      try discriminate (H1 eq_refl); try discriminate (H2 eq_refl).
  Qed.
End Paint.

(** ** draw_point *)
Section Point.
  Context {A : Type}.
  Variable sg : nat -> nat -> list (nat * nat).
  Hypothesis Hsg : sched_ok sg.
  Implicit Types im : image A.

  Definition in_disc (px py r x y : nat) : bool :=
    ((Z.of_nat x - Z.of_nat px) ^ 2 + (Z.of_nat y - Z.of_nat py) ^ 2 <? Z.of_nat r ^ 2)%Z.

  Lemma in_disc_box px py r x y : in_disc px py r x y = true ->
    (Z.abs (Z.of_nat x - Z.of_nat px) < Z.of_nat r)%Z /\ (Z.abs (Z.of_nat y - Z.of_nat py) < Z.of_nat r)%Z.
  Proof.
    unfold in_disc; intros H; rewrite !Z.pow_2_r in H; apply Z.ltb_lt in H; nia.
  Qed.

  Lemma draw_point_Repr im w h f px py v r :
    Repr im w h f -> r <= px -> r <= py -> fits (px + r) -> fits (py + r) ->
    exists o, draw_point sg im px py v r = Ok o /\
      Repr o w h (fun x y => if in_disc px py r x y then v else f x y).
  Proof.
    intros R Hx Hy Fx Fy; unfold draw_point; dims2 R; dims2 R.
    rewrite !usub_le, !uadd_fits by (unfold fits in *; lia).
    set (L := sg (span (py - r) (py + r)) (span (px - r) (px + r))).
    assert (HL : forall p, In p L <-> fst p < py + r - (py - r) + 1 /\ snd p < px + r - (px - r) + 1).
    { intros p; unfold L; rewrite sched_in by exact Hsg; unfold span.
      destruct (Nat.leb_spec (py - r) (py + r)), (Nat.leb_spec (px - r) (px + r)); lia. }
    clearbody L.
    destruct (paint L (fun p s =>
      if (w <=? px - r + snd p) || (h <=? py - r + fst p) then Ok s
      else if ((Z.of_nat (px - r + snd p) - Z.of_nat px) ^ 2 + (Z.of_nat (py - r + fst p) - Z.of_nat py) ^ 2 <? Z.of_nat r ^ 2)%Z
           then atu_set s [px - r + snd p; py - r + fst p] v else Ok s)
      (fun p => (negb ((w <=? px - r + snd p) || (h <=? py - r + fst p))) && in_disc px py r (px - r + snd p) (py - r + fst p))
      (fun p => px - r + snd p) (fun p => py - r + fst p) v im w h f R) as (o & E & Ro).
    - intros p s Hp D L'; destruct ((w <=? px - r + snd p) || (h <=? py - r + fst p)) eqn:B; cbn [negb andb]; auto.
      unfold in_disc; destruct (_ <? _)%Z; auto.
      apply (atu_set2_ok s w h); auto; lia.
    - intros p Hp Hc; lia.
    - exists o; split; auto.
      apply (Repr_paint_iff o w h f v _ (fun x y => in_disc px py r x y) Ro); intros x y Hx' Hy'; rewrite existsb_exists; split.
      + intros (p & Hp & Hc); apply andb_true_iff in Hc; destruct Hc as [Hc Hxy].
        apply andb_true_iff in Hc; destruct Hc as [_ Hd].
        apply andb_true_iff in Hxy; destruct Hxy as [E1 E2]; apply Nat.eqb_eq in E1, E2; subst; exact Hd.
      + intros Hd; pose proof (in_disc_box _ _ _ _ _ Hd) as [B1 B2].
        exists (y - (py - r), x - (px - r)); split; [apply HL; simpl; lia|]; simpl.
        replace (px - r + (x - (px - r))) with x by lia; replace (py - r + (y - (py - r))) with y by lia.
        rewrite Hd, !Nat.eqb_refl; lia.
  Qed.

  (** near the left or top border the start of the loop wraps around: nothing is drawn *)
  Lemma draw_point_wrap im w h f px py v r :
    Repr im w h f -> (px < r \/ py < r) -> fits (px + r) -> fits (py + r) ->
    (Z.of_nat (px + r) < 2 ^ 63)%Z -> (Z.of_nat (py + r) < 2 ^ 63)%Z ->
    draw_point sg im px py v r = Ok im.
  Proof.
    intros R H Fx Fy Bx By; unfold draw_point; dims2 R; dims2 R.
    rewrite !uadd_fits by auto.
    assert (E : sg (span (usub py r) (py + r)) (span (usub px r) (px + r)) = []).
    { destruct (sg (span (usub py r) (py + r)) (span (usub px r) (px + r))) as [|p l] eqn:El; auto.
      assert (HI : In p (sg (span (usub py r) (py + r)) (span (usub px r) (px + r)))) by (rewrite El; simpl; auto).
      apply sched_in in HI; auto; exfalso.
      assert (Z0 : forall q, q < r -> fits (q + r) -> (Z.of_nat (q + r) < 2 ^ 63)%Z -> span (usub q r) (q + r) = 0).
      { intros q Hq Fq Bq; unfold span; destruct (Nat.leb_spec (usub q r) (q + r)) as [C|C]; auto.
        pose proof (usub_gt q r); unfold fits, two64 in *; lia. }
      destruct H as [H|H]; [rewrite (Z0 px) in HI by auto | rewrite (Z0 py) in HI by auto]; lia. }
    rewrite E; reflexivity.
  Qed.

  Lemma draw_points_Repr ps : forall im w h f v r,
    Repr im w h f ->
    Forall (fun p => r <= fst p /\ r <= snd p /\ fits (fst p + r) /\ fits (snd p + r)) ps ->
    exists o, draw_points sg im ps v r = Ok o /\
      Repr o w h (fun x y => if existsb (fun p => in_disc (fst p) (snd p) r x y) ps then v else f x y).
  Proof.
    induction ps as [|p ps IH]; intros im w h f v r R HF; unfold draw_points; cbn [for_list].
    - exists im; split; auto.
    - inversion HF as [|? ? (H1 & H2 & H3 & H4) HF']; subst.
      destruct (draw_point_Repr im w h f (fst p) (snd p) v r R H1 H2 H3 H4) as (o & E & Ro).
      rewrite E; cbn [bind]; destruct (IH o w h _ v r Ro HF') as (o' & E' & Ro').
      exists o'; split; auto; eapply Repr_ext; eauto; intros x y Hx Hy; cbn [existsb].
      destruct (existsb _ ps); [rewrite orb_true_r; reflexivity | rewrite orb_false_r; reflexivity].
  Qed.
End Point.

(** ** draw_circle *)
Fixpoint circle_path (fuel : nat) (r x y : Z) : option (list (Z * Z)) :=
  match fuel with
  | O => None
  | S fuel' =>
      if (x <=? y)%Z then
        let y1 := (y - 1)%Z in
        let y2 := if (w64 (x * x + y1 * y1) <? w64 (r * r))%Z then (y1 + 1)%Z else y1 in
        match circle_path fuel' r (x + 1)%Z y2 with
        | Some l => Some ((x, y2) :: l)
        | None => None
        end
      else Some []
  end.

(** membership in the discrete ring of radius r: with lo <= hi the two absolute offsets, hi is the least
    offset whose squared distance reaches r^2 *)
Definition ring (r a b : Z) : Prop :=
  let lo := Z.min (Z.abs a) (Z.abs b) in let hi := Z.max (Z.abs a) (Z.abs b) in
  (r * r <= lo * lo + hi * hi /\ lo * lo + (hi - 1) * (hi - 1) < r * r)%Z.
Definition ringb (r a b : Z) : bool :=
  let lo := Z.min (Z.abs a) (Z.abs b) in let hi := Z.max (Z.abs a) (Z.abs b) in
  ((r * r <=? lo * lo + hi * hi) && (lo * lo + (hi - 1) * (hi - 1) <? r * r))%Z.
Lemma ringb_spec r a b : ringb r a b = true <-> ring r a b.
Proof. unfold ringb, ring; cbv zeta; rewrite andb_true_iff, Z.leb_le, Z.ltb_lt; tauto. Qed.

(** the same for ordered non-negative offsets *)
Definition oring (r lo hi : Z) : Prop := (r * r <= lo * lo + hi * hi /\ lo * lo + (hi - 1) * (hi - 1) < r * r)%Z.

Lemma circle_path_spec (r : Z) (Hr : (0 < r < 2 ^ 31)%Z) :
  forall fuel x y,
  (0 <= x)%Z -> (0 <= y <= r)%Z -> (x <= y + 1)%Z ->
  (let m := Z.max (x - 1) 0 in m * m + (y - 1) * (y - 1) < r * r <= m * m + y * y)%Z ->
  (Z.to_nat (y - x + 1) < fuel)%nat ->
  exists l, circle_path fuel r x y = Some l /\
    (forall u v, In (u, v) l -> (0 <= u /\ 0 <= v /\ u <= r /\ v <= r)%Z /\ oring r (Z.min u v) (Z.max u v)) /\
    (forall u v, (x <= u <= v)%Z -> oring r u v -> In (u, v) l).
Proof.
  induction fuel as [|fuel IH]; intros x y Hx Hy Hxy HI Hf; [lia|]; cbn [circle_path].
  destruct (Z.leb_spec x y) as [Lxy|Lxy].
  2:{ exists []; split; auto; split; [intros u v []|].
      intros u v Huv [O1 O2]; exfalso; cbv zeta in HI; rewrite Z.max_l in HI by lia; nia. }
  assert (Hxr : (x <= r)%Z) by lia.
  assert (Q1 : (x * x <= r * r)%Z) by (apply Z.mul_le_mono_nonneg; lia).
  assert (Q2 : ((y - 1) * (y - 1) <= r * r)%Z) by nia.
  assert (Q3 : (r * r < 2 ^ 31 * 2 ^ 31)%Z) by (apply Z.mul_lt_mono_nonneg; lia).
  change (2 ^ 31 * 2 ^ 31)%Z with 4611686018427387904%Z in Q3.
  assert (W1 : (w64 (x * x + (y - 1) * (y - 1)) = x * x + (y - 1) * (y - 1))%Z).
  { unfold w64; apply Z.mod_small; split; [nia|]; change two64 with 18446744073709551616%Z; lia. }
  assert (W2 : (w64 (r * r) = r * r)%Z).
  { unfold w64; apply Z.mod_small; split; [nia|]; change two64 with 18446744073709551616%Z; lia. }
  clear Q1 Q2 Q3.
  rewrite W1, W2; cbv zeta in HI.
  destruct (Z.ltb_spec (x * x + (y - 1) * (y - 1)) (r * r)) as [C|C].
  - (* keep y *)
    replace (y - 1 + 1)%Z with y by lia.
    assert (Ry : (r * r <= x * x + y * y)%Z) by (destruct (Z.max_spec (x - 1) 0) as [[? E]|[? E]]; rewrite E in HI; nia).
    destruct (IH (x + 1)%Z y) as (l & El & S1 & S2); try lia.
    rewrite El; eexists; split; [reflexivity|]; split.
    + intros u v [E|HIn]; [injection E as <- <-|auto].
      split; [lia|]; rewrite Z.min_l, Z.max_r by lia; split; auto.
    + intros u v Huv [O1 O2]; destruct (Z.eq_dec u x) as [->|N]; [left|right; apply S2; [lia | split; auto]].
      f_equal; assert (~ (v < y)%Z) by nia; assert (~ (y < v)%Z) by nia; lia.
  - (* decrement *)
    destruct (Z.eq_dec x y) as [<-|Nxy].
    + (* past the diagonal: last iteration *)
      destruct fuel as [|fuel]; [lia|]; cbn [circle_path].
      destruct (Z.leb_spec (x + 1) (x - 1)); [lia|].
      assert (Hx0 : (0 < x)%Z).
      { destruct (Z.eq_dec x 0) as [->|]; [|lia]; simpl in HI, C; nia. }
      rewrite Z.max_l in HI by lia.
      eexists; split; [reflexivity|]; split.
      * intros u v [E|[]]; injection E as <- <-; split; [lia|].
        rewrite Z.min_r, Z.max_l by lia; split; nia.
      * intros u v Huv [O1 O2]; exfalso; nia.
    + assert (Hx0 : (0 < x)%Z).
      { destruct (Z.eq_dec x 0) as [->|]; [|lia]; exfalso; simpl in HI, C; nia. }
      rewrite Z.max_l in HI by lia.
      destruct (IH (x + 1)%Z (y - 1)%Z) as (l & El & S1 & S2); try lia;
        try (cbv zeta; replace (Z.max (x + 1 - 1) 0) with x by lia; nia).
      rewrite El; eexists; split; [reflexivity|]; split.
      * intros u v [E|HIn]; [injection E as <- <-|auto].
        split; [lia|]; rewrite Z.min_l, Z.max_r by lia; split; nia.
      * intros u v Huv [O1 O2]; destruct (Z.eq_dec u x) as [->|N]; [left|right; apply S2; [lia | split; auto]].
        f_equal; assert (~ (v < y - 1)%Z) by nia; assert (~ (y - 1 < v)%Z) by nia; lia.
Qed.

Lemma in_octants x y a b : (0 <= x)%Z -> (0 <= y)%Z ->
  In (a, b) (octants x y) <->
  (Z.abs a = x /\ Z.abs b = y \/ Z.abs a = y /\ Z.abs b = x)%Z.
Proof.
  intros Hx Hy; unfold octants; simpl; split.
  - intros H; repeat destruct H as [H|H]; try (injection H as <- <-; lia); destruct H.
  - intros H.
    assert (Ha : a = Z.abs a \/ a = (- Z.abs a)%Z) by lia.
    assert (Hb : b = Z.abs b \/ b = (- Z.abs b)%Z) by lia.
    destruct H as [[<- <-]|[<- <-]]; destruct Ha as [Ha|Ha], Hb as [Hb|Hb]; rewrite Ha, Hb; rewrite ?Z.abs_opp, ?Z.abs_involutive; auto 10.
Qed.

Lemma ring_path (r : Z) (Hr : (0 < r < 2 ^ 31)%Z) fuel : (Z.to_nat r + 1 < fuel)%nat ->
  exists l, circle_path fuel r 0 r = Some l /\
    forall a b, In (a, b) (flat_map (fun p => octants (fst p) (snd p)) l) <-> ring r a b.
Proof.
  intros Hf; destruct (circle_path_spec r Hr fuel 0 r) as (l & El & S1 & S2); try lia; try (cbv zeta; simpl; nia).
  exists l; split; auto; intros a b; rewrite in_flat_map; split.
  - intros ([u v] & HI & HO); destruct (S1 u v HI) as [B O]; cbn [fst snd] in HO.
    apply in_octants in HO; try lia; unfold ring; cbv zeta; destruct HO as [[-> ->]|[-> ->]]; auto.
    rewrite Z.min_comm, Z.max_comm; exact O.
  - intros HR; exists (Z.min (Z.abs a) (Z.abs b), Z.max (Z.abs a) (Z.abs b)); split.
    + apply S2; [lia | exact HR].
    + cbn [fst snd]; apply in_octants; lia.
Qed.

Section Circle.
  Context {A : Type}.
  Implicit Types s im : image A.

  Lemma circle_loop_path cx cy r (v : A) : forall fuel x y s,
    circle_loop fuel cx cy r v x y s =
    match circle_path fuel r x y with
    | Some l => Some (for_list (flat_map (fun p => octants (fst p) (snd p)) l) (circle_set cx cy v) s)
    | None => circle_loop fuel cx cy r v x y s
    end.
  Proof.
    induction fuel as [|fuel IH]; intros x y s; [reflexivity|]; cbn [circle_loop circle_path].
    destruct (x <=? y)%Z; [|reflexivity]; cbv zeta.
    set (y2 := if (_ <? _)%Z then _ else _).
    destruct (circle_path fuel r (x + 1) y2) as [l|] eqn:El; [|reflexivity].
    cbn [flat_map fst snd]; rewrite for_list_app.
    destruct (for_list (octants x y2) (circle_set cx cy v) s) as [s'|e|]; cbn [bind]; auto.
    rewrite IH, El; reflexivity.
  Qed.

  Lemma circle_set_ok cx cy v ab s w h : dims s = [w; h] -> length (pix s) = w * h ->
    let x := wn (Z.of_nat cx + fst ab) in let y := wn (Z.of_nat cy + snd ab) in
    circle_set cx cy v ab s = if (x <? w) && (y <? h) then Ok (im_upd s (y * w + x) v) else Ok s.
  Proof.
    intros D L x y; unfold circle_set, set_tuple, check_boundary_tuple; fold x y; rewrite D; cbn [length Nat.eqb negb].
    destruct ((x <? w) && (y <? h)) eqn:E.
    - assert (IR : in_range [w; h] [x; y]) by (apply in_range2; lia).
      rewrite check_tuple_in by exact IR; cbn [bind].
      rewrite calculate_index_off by (simpl; lia); cbn [bind]; rewrite off2.
      rewrite vset_ok by (rewrite L; nia); cbn [bind snd]; unfold im_upd; rewrite D; reflexivity.
    - rewrite check_tuple_out; [reflexivity | reflexivity | rewrite in_range2; lia].
  Qed.

  Lemma draw_circle_Repr im w h f cx cy r v fuel :
    Repr im w h f -> (0 < r) -> (Z.of_nat r < 2 ^ 31)%Z -> r + 1 < fuel ->
    (Z.of_nat w <= 2 ^ 63)%Z -> (Z.of_nat h <= 2 ^ 63)%Z -> fits (cx + r) -> fits (cy + r) ->
    exists o, draw_circle fuel im cx cy r v = Some (Ok o) /\
      Repr o w h (fun x y => if ringb (Z.of_nat r) (Z.of_nat x - Z.of_nat cx) (Z.of_nat y - Z.of_nat cy)
                             then v else f x y).
  Proof.
    intros R Hr0 Hr Hf Bw Bh Fx Fy; unfold draw_circle; rewrite (check2d_Repr _ _ _ _ R).
    destruct (Nat.eqb_spec r 0) as [Er|_]; [lia|].
    rewrite circle_loop_path.
    destruct (ring_path (Z.of_nat r) ltac:(lia) fuel ltac:(lia)) as (l & El & HL); rewrite El.
    destruct (paint (flat_map (fun p => octants (fst p) (snd p)) l) (circle_set cx cy v)
      (fun ab => (wn (Z.of_nat cx + fst ab) <? w) && (wn (Z.of_nat cy + snd ab) <? h))
      (fun ab => wn (Z.of_nat cx + fst ab)) (fun ab => wn (Z.of_nat cy + snd ab)) v im w h f R) as (o & E & Ro).
    - intros ab s _ D L; apply circle_set_ok; auto.
    - intros ab _ Hc; lia.
    - exists o; rewrite E; split; auto.
      apply (Repr_paint_iff o w h f v _ (fun x y => ringb (Z.of_nat r) (Z.of_nat x - Z.of_nat cx) (Z.of_nat y - Z.of_nat cy)) Ro).
      assert (WN : forall c z n, fits (c + r) -> (Z.of_nat n <= 2 ^ 63)%Z -> (Z.abs z <= Z.of_nat r)%Z ->
                     forall q, q < n -> (q = wn (Z.of_nat c + z) <-> z = Z.of_nat q - Z.of_nat c)%Z).
      { intros c z n Fc Bn Bz q Hq; unfold wn, w64; split.
        - intros Eq; destruct (Z.le_gt_cases 0 (Z.of_nat c + z)).
          + rewrite Z.mod_small in Eq by (unfold fits in *; lia); lia.
          + exfalso; assert (Em : ((Z.of_nat c + z) mod two64 = Z.of_nat c + z + two64)%Z).
            { replace (Z.of_nat c + z)%Z with (Z.of_nat c + z + two64 + (-1) * two64)%Z at 1 by lia.
              rewrite Z.mod_add by (unfold two64; lia); apply Z.mod_small; unfold two64; lia. }
            rewrite Em in Eq; unfold two64 in *; lia.
        - intros ->; rewrite Z.mod_small by (unfold fits, two64 in *; lia); lia. }
      assert (RB : forall a b, ring (Z.of_nat r) a b -> (Z.abs a <= Z.of_nat r /\ Z.abs b <= Z.of_nat r)%Z).
      { intros a b [_ H2]; clear - H2; nia. }
      intros x y Hx Hy; rewrite existsb_exists, ringb_spec; split.
      + intros ([a b] & HI & Hc); apply HL in HI; pose proof (RB a b HI) as [Ba Bb].
        cbn [fst snd] in Hc; apply andb_true_iff in Hc; destruct Hc as [_ Hc]; apply andb_true_iff in Hc.
        destruct Hc as [E1 E2]; apply Nat.eqb_eq in E1, E2.
        apply (WN cx a w Fx Bw Ba x Hx) in E1; apply (WN cy b h Fy Bh Bb y Hy) in E2; subst; exact HI.
      + intros HI; pose proof (RB _ _ HI) as [Ba Bb].
        eexists; split; [apply HL, HI|]; cbn [fst snd].
        pose proof (proj2 (WN cx _ w Fx Bw Ba x Hx) eq_refl) as E1.
        pose proof (proj2 (WN cy _ h Fy Bh Bb y Hy) eq_refl) as E2.
        rewrite <- E1, <- E2; rewrite !Nat.eqb_refl; lia.
  Qed.
End Circle.

(** ** draw_line *)
Fixpoint line_path (fuel : nat) (x2 y2 dx dy sx sy x1 y1 err : Z) : option (list (Z * Z)) :=
  match fuel with
  | O => None
  | S fuel' =>
      if ((x1 =? x2) && (y1 =? y2))%Z then Some [(x1, y1)]
      else
        let e2 := (2 * err)%Z in
        let bx := (dy <=? e2)%Z in let by_ := (e2 <=? dx)%Z in
        match line_path fuel' x2 y2 dx dy sx sy (if bx then x1 + sx else x1)%Z (if by_ then y1 + sy else y1)%Z
                (err + (if bx then dy else 0) + (if by_ then dx else 0))%Z with
        | Some l => Some ((x1, y1) :: l)
        | None => None
        end
  end.

(** consecutive elements are related *)
Fixpoint chain {P} (R : P -> P -> Prop) (l : list P) : Prop :=
  match l with
  | a :: ((b :: _) as t) => R a b /\ chain R t
  | _ => True
  end.

(** one step of a line: at most one pixel in each axis *)
Definition step8 (p q : Z * Z) : Prop :=
  (Z.abs (fst q - fst p) <= 1 /\ Z.abs (snd q - snd p) <= 1)%Z.

(** the point lies in the bounding box of the end points and at most half a pixel (along the minor axis)
    from the ideal line *)
Definition near_line (x1 y1 x2 y2 : Z) (p : Z * Z) : Prop :=
  (Z.min x1 x2 <= fst p <= Z.max x1 x2 /\ Z.min y1 y2 <= snd p <= Z.max y1 y2 /\
   2 * Z.abs ((snd p - y1) * (x2 - x1) - (fst p - x1) * (y2 - y1)) <= Z.max (Z.abs (x2 - x1)) (Z.abs (y2 - y1)))%Z.

Section LinePath.
  Variables x0 y0 DX DY sx sy : Z.
  Hypothesis HDX : (0 <= DX)%Z.
  Hypothesis HDY : (0 <= DY)%Z.
  Hypothesis Hsx : sx = 1%Z \/ sx = (-1)%Z.
  Hypothesis Hsy : sy = 1%Z \/ sy = (-1)%Z.

  Let M := Z.max DX DY.
  (** state after X steps in x and Y steps in y *)
  Let st_ok X Y : Prop :=
    (0 <= X <= DX /\ 0 <= Y <= DY /\ 2 * Z.abs (Y * DX - X * DY) <= M)%Z.

  Lemma line_path_spec : forall n fuel X Y,
    st_ok X Y -> (Z.of_nat n = M - (if DY <=? DX then X else Y))%Z -> (n < fuel)%nat ->
    exists l,
      line_path fuel (x0 + sx * DX) (y0 + sy * DY) DX (- DY) sx sy (x0 + sx * X) (y0 + sy * Y)
                ((Y + 1) * DX - (X + 1) * DY)%Z = Some ((x0 + sx * X, y0 + sy * Y)%Z :: l) /\
      length l = n /\
      last ((x0 + sx * X, y0 + sy * Y)%Z :: l) (0, 0)%Z = (x0 + sx * DX, y0 + sy * DY)%Z /\
      chain step8 ((x0 + sx * X, y0 + sy * Y)%Z :: l) /\
      Forall (fun p => exists X' Y', st_ok X' Y' /\ p = (x0 + sx * X', y0 + sy * Y')%Z) ((x0 + sx * X, y0 + sy * Y)%Z :: l).
  Proof.
    unfold st_ok, M; clear st_ok M.
    induction n as [|n IH]; intros fuel X Y (BX & BY & BE) Hn Hf; destruct fuel as [|fuel]; try lia; cbn [line_path].
    - assert (X = DX /\ Y = DY) as [-> ->].
      { destruct (Z.leb_spec DY DX).
        - assert (X = DX) as -> by lia; split; auto.
          destruct (Z.eq_dec DX 0) as [->|N]; [lia|]; assert (~ (Y < DY)%Z) by nia; lia.
        - assert (Y = DY) as -> by lia; split; auto.
          assert (~ (X < DX)%Z) by nia; lia. }
      rewrite !Z.eqb_refl; cbn [andb]; exists []; repeat split; auto.
      constructor; [|constructor]; exists DX, DY; repeat split; try lia.
    - assert (NE : ((x0 + sx * X =? x0 + sx * DX) && (y0 + sy * Y =? y0 + sy * DY))%Z = false).
      { destruct (Z.leb_spec DY DX), Hsx as [-> | ->], Hsy as [-> | ->]; lia. }
      rewrite NE; cbv zeta.
      set (bx := (- DY <=? 2 * ((Y + 1) * DX - (X + 1) * DY))%Z).
      set (by_ := (2 * ((Y + 1) * DX - (X + 1) * DY) <=? DX)%Z).
      set (X' := if bx then (X + 1)%Z else X); set (Y' := if by_ then (Y + 1)%Z else Y).
      assert (EX : (if bx then x0 + sx * X + sx else x0 + sx * X)%Z = (x0 + sx * X')%Z)
        by (unfold X'; destruct bx; lia).
      assert (EY : (if by_ then y0 + sy * Y + sy else y0 + sy * Y)%Z = (y0 + sy * Y')%Z)
        by (unfold Y'; destruct by_; lia).
      assert (EE : ((Y + 1) * DX - (X + 1) * DY + (if bx then - DY else 0) + (if by_ then DX else 0) =
                    (Y' + 1) * DX - (X' + 1) * DY)%Z)
        by (unfold X', Y'; destruct bx, by_; lia).
      rewrite EX, EY, EE.
      assert (SO : (0 <= X' <= DX /\ 0 <= Y' <= DY /\ 2 * Z.abs (Y' * DX - X' * DY) <= Z.max DX DY)%Z /\
                   (Z.of_nat n = Z.max DX DY - (if DY <=? DX then X' else Y'))%Z).
      { unfold X', Y', bx, by_; clear - HDX HDY BX BY BE Hn.
        destruct (Z.leb_spec DY DX) as [C|C].
        - rewrite Z.max_l in * by lia.
          destruct (Z.leb_spec (- DY) (2 * ((Y + 1) * DX - (X + 1) * DY))); [|nia].
          destruct (Z.leb_spec (2 * ((Y + 1) * DX - (X + 1) * DY)) DX).
          + assert (~ (DY <= Y)%Z) by nia; repeat split; try lia; nia.
          + repeat split; try lia; nia.
        - rewrite Z.max_r in * by lia.
          destruct (Z.leb_spec (2 * ((Y + 1) * DX - (X + 1) * DY)) DX); [|nia].
          destruct (Z.leb_spec (- DY) (2 * ((Y + 1) * DX - (X + 1) * DY))).
          + assert (~ (DX <= X)%Z) by nia; repeat split; try lia; nia.
          + repeat split; try lia; nia. }
      destruct SO as [SO Hn'].
      destruct (IH fuel X' Y' SO Hn' ltac:(lia)) as (l & El & Ll & La & Ch & Fo).
      rewrite El; eexists; split; [reflexivity|]; split; [simpl; lia|]; split; [exact La|]; split.
      + split; auto; unfold step8; simpl; unfold X', Y'; destruct Hsx as [-> | ->], Hsy as [-> | ->], bx, by_; lia.
      + constructor; auto; exists X, Y; repeat split; try lia.
  Qed.
End LinePath.

Lemma line_path_full x1 y1 x2 y2 fuel :
  let dx := Z.abs (x2 - x1) in let dy := Z.abs (y2 - y1) in
  (Z.to_nat (Z.max dx dy) < fuel)%nat ->
  exists l,
    line_path fuel x2 y2 dx (- dy) (if x1 <? x2 then 1 else -1)%Z (if y1 <? y2 then 1 else -1)%Z x1 y1 (dx + - dy)
      = Some ((x1, y1) :: l) /\
    length l = Z.to_nat (Z.max dx dy) /\
    last ((x1, y1) :: l) (0, 0)%Z = (x2, y2) /\
    chain step8 ((x1, y1) :: l) /\
    Forall (near_line x1 y1 x2 y2) ((x1, y1) :: l).
Proof.
  intros dx dy Hf.
  set (sx := (if x1 <? x2 then 1 else -1)%Z); set (sy := (if y1 <? y2 then 1 else -1)%Z).
  assert (Hsx : sx = 1%Z \/ sx = (-1)%Z) by (unfold sx; destruct (x1 <? x2)%Z; auto).
  assert (Hsy : sy = 1%Z \/ sy = (-1)%Z) by (unfold sy; destruct (y1 <? y2)%Z; auto).
  assert (Ex : (x2 = x1 + sx * dx)%Z) by (unfold sx, dx; destruct (Z.ltb_spec x1 x2); lia).
  assert (Ey : (y2 = y1 + sy * dy)%Z) by (unfold sy, dy; destruct (Z.ltb_spec y1 y2); lia).
  destruct (line_path_spec x1 y1 dx dy sx sy ltac:(lia) ltac:(lia) Hsx Hsy (Z.to_nat (Z.max dx dy)) fuel 0 0)
    as (l & El & Ll & La & Ch & Fo); try lia.
  { destruct (dy <=? dx)%Z; lia. }
  rewrite !Z.mul_0_r, !Z.add_0_r, <- Ex, <- Ey in *.
  replace ((0 + 1) * dx - (0 + 1) * dy)%Z with (dx + - dy)%Z in El by lia.
  exists l; repeat split; auto; try apply Ch.
  eapply Forall_impl; [|exact Fo]; intros p (X & Y & (B1 & B2 & B3) & ->); unfold near_line; cbn [fst snd].
  clear - Ex Ey Hsx Hsy B1 B2 B3; assert (D0 : (0 <= dx /\ 0 <= dy)%Z) by lia; clearbody dx dy sx sy.
  replace (x2 - x1)%Z with (sx * dx)%Z by lia; replace (y2 - y1)%Z with (sy * dy)%Z by lia.
  destruct Hsx as [-> | ->], Hsy as [-> | ->]; repeat split; try lia.
Qed.

Section Line.
  Context {A : Type}.
  Implicit Types s im : image A.

  Definition line_set (v : A) (p : Z * Z) (s : image A) : res (image A) :=
    let* w := get_width s in let* h := get_height s in
    if ((0 <=? fst p) && (fst p <? Z.of_nat w) && (0 <=? snd p) && (snd p <? Z.of_nat h))%Z
    then at_set s [Z.to_nat (fst p); Z.to_nat (snd p)] v else Ok s.

  Lemma line_loop_path x2 y2 dx dy sx sy (v : A) : forall fuel x1 y1 err s,
    line_loop fuel x2 y2 dx dy sx sy v x1 y1 err s =
    match line_path fuel x2 y2 dx dy sx sy x1 y1 err with
    | Some l => Some (for_list l (line_set v) s)
    | None => line_loop fuel x2 y2 dx dy sx sy v x1 y1 err s
    end.
  Proof.
    induction fuel as [|fuel IH]; intros x1 y1 err s; [reflexivity|]; cbn [line_loop line_path]; cbv zeta.
    fold (line_set v (x1, y1) s).
    change (let* w := get_width s in let* h := get_height s in
            if ((0 <=? x1) && (x1 <? Z.of_nat w) && (0 <=? y1) && (y1 <? Z.of_nat h))%Z
            then at_set s [Z.to_nat x1; Z.to_nat y1] v else Ok s) with (line_set v (x1, y1) s).
    destruct ((x1 =? x2) && (y1 =? y2))%Z.
    - cbn [for_list]; destruct (line_set v (x1, y1) s); reflexivity.
    - set (a := if (dy <=? 2 * err)%Z then (x1 + sx)%Z else x1).
      set (b := if (2 * err <=? dx)%Z then (y1 + sy)%Z else y1).
      set (e := (err + (if (dy <=? 2 * err)%Z then dy else 0) + (if (2 * err <=? dx)%Z then dx else 0))%Z).
      destruct (line_path fuel x2 y2 dx dy sx sy a b e) as [l|] eqn:El; [|reflexivity].
      cbn [for_list]; destruct (line_set v (x1, y1) s) as [s'|er|]; cbn [bind]; auto.
      rewrite IH, El; reflexivity.
  Qed.

  Lemma draw_line_Repr im w h f x1 y1 x2 y2 v fuel :
    Repr im w h f -> (Z.to_nat (Z.max (Z.abs (x2 - x1)) (Z.abs (y2 - y1))) < fuel)%nat ->
    exists path o, draw_line fuel im x1 y1 x2 y2 v = Some (Ok o) /\
      (hd (0, 0) path = (x1, y1) /\ last path (0, 0) = (x2, y2))%Z /\
      length path = S (Z.to_nat (Z.max (Z.abs (x2 - x1)) (Z.abs (y2 - y1)))) /\
      chain step8 path /\ Forall (near_line x1 y1 x2 y2) path /\
      Repr o w h (fun x y => if existsb (fun p => (fst p =? Z.of_nat x)%Z && (snd p =? Z.of_nat y)%Z) path
                             then v else f x y).
  Proof.
    intros R Hf; unfold draw_line; rewrite (check2d_Repr _ _ _ _ R); cbv zeta.
    destruct (line_path_full x1 y1 x2 y2 fuel Hf) as (l & El & Ll & La & Ch & Fo).
    rewrite line_loop_path; rewrite El.
    destruct (paint ((x1, y1) :: l) (line_set v)
      (fun p => ((0 <=? fst p) && (fst p <? Z.of_nat w) && (0 <=? snd p) && (snd p <? Z.of_nat h))%Z)
      (fun p => Z.to_nat (fst p)) (fun p => Z.to_nat (snd p)) v im w h f R) as (o & E & Ro).
    - intros p s _ D L; unfold line_set, get_width, get_height, get_dimensionality; rewrite D; cbn [vget nth_error bind length].
      cbn [Nat.ltb Nat.leb vget nth_error bind].
      destruct ((0 <=? fst p) && (fst p <? Z.of_nat w) && (0 <=? snd p) && (snd p <? Z.of_nat h))%Z eqn:C; auto.
      apply (at_set2_ok s w h); auto; lia.
    - intros p _ Hc; lia.
    - exists ((x1, y1) :: l), o; rewrite E; split; auto; split; auto; split; [simpl; lia|]; do 2 (split; auto).
      apply (Repr_paint_iff o w h f v _
        (fun x y => existsb (fun p => (fst p =? Z.of_nat x)%Z && (snd p =? Z.of_nat y)%Z) ((x1, y1) :: l)) Ro).
      intros x y Hx Hy; rewrite !existsb_exists; split; intros (p & HI & Hp); exists p; split; auto; lia.
  Qed.
End Line.
