(** WarpProofs.v - facts about warp_perspective and create_stitched_image. *)
From Coq Require Import QArith Qcanon Qround Lia ZifyBool ZifyNat Ring Field Permutation Lqa.
From Verif Require Import Base ImageModel ImageFacts PixelModel PixelProofs BigSum OField LinModel LinProofs PropLin PropBmp InterpModel InterpProofs HomModel HomProofs.
Open Scope nat_scope.

(** a loop over all pixels that writes some of them *)
Lemma overlay_opt {A I} (l : list I) (body : I -> image A -> res (image A)) (qx qy : I -> nat) w h (g : nat -> nat -> option A) :
  (forall i s, In i l -> dims s = [w; h] -> length (pix s) = w * h ->
    body i s = Ok (match g (qx i) (qy i) with Some v => im_upd s (qy i * w + qx i) v | None => s end)) ->
  (forall i, In i l -> qx i < w /\ qy i < h) ->
  (forall x y, x < w -> y < h -> exists i, In i l /\ qx i = x /\ qy i = y) ->
  forall im f, Repr im w h f ->
  exists im', for_list l body im = Ok im' /\ Repr im' w h (fun x y => match g x y with Some v => v | None => f x y end).
Proof.
  intros HB HP HC im f HI.
  assert (G : forall l im f, (forall i, In i l -> (forall s, dims s = [w; h] -> length (pix s) = w * h ->
      body i s = Ok (match g (qx i) (qy i) with Some v => im_upd s (qy i * w + qx i) v | None => s end)) /\ qx i < w /\ qy i < h) ->
    Repr im w h f ->
    exists im', for_list l body im = Ok im' /\ Repr im' w h (fun x y =>
      if existsb (fun i => (x =? qx i) && (y =? qy i)) l then match g x y with Some v => v | None => f x y end else f x y)).
  { clear. induction l as [|i l IH]; intros im f H HI.
    - exists im; split; auto.
    - destruct (H i (or_introl eq_refl)) as (B & X & Y). cbn [for_list existsb].
      rewrite B by apply HI. cbn [bind].
      destruct (g (qx i) (qy i)) as [v|] eqn:Eg.
      + destruct (IH _ _ (fun j Hj => H j (or_intror Hj)) (im_upd_Repr im w h f (qx i) (qy i) v HI X Y)) as (im' & E & R).
        exists im'; split; auto. eapply Repr_ext; eauto. intros x y Hx Hy. cbn beta.
        destruct (Nat.eqb_spec x (qx i)) as [->|Nx], (Nat.eqb_spec y (qy i)) as [->|Ny]; cbn [andb orb]; auto.
        rewrite Eg. destruct (existsb _ l); auto.
      + destruct (IH _ _ (fun j Hj => H j (or_intror Hj)) HI) as (im' & E & R).
        exists im'; split; auto. eapply Repr_ext; eauto. intros x y Hx Hy. cbn beta.
        destruct (Nat.eqb_spec x (qx i)) as [->|Nx], (Nat.eqb_spec y (qy i)) as [->|Ny]; cbn [andb orb]; auto.
        rewrite Eg. destruct (existsb _ l); auto. }
  assert (HL : forall i, In i l -> (forall s, dims s = [w; h] -> length (pix s) = w * h ->
      body i s = Ok (match g (qx i) (qy i) with Some v => im_upd s (qy i * w + qx i) v | None => s end)) /\ qx i < w /\ qy i < h).
  { intros i Hi. split; [intros; apply HB; auto|apply HP; auto]. }
  destruct (G l im f HL HI) as (im' & E & R).
  exists im'; split; auto. eapply Repr_ext; eauto. intros x y Hx Hy. cbn beta.
  destruct (HC x y Hx Hy) as (i & Hi & <- & <-).
  replace (existsb _ l) with true; auto. symmetry. apply existsb_exists. exists i; split; auto. rewrite !Nat.eqb_refl; auto.
Qed.

(** the two ways of running over all pixels *)
Lemma overlay_grid {A} sg (body : nat -> nat -> image A -> res (image A)) w h (g : nat -> nat -> option A) im f :
  sched_ok sg -> Repr im w h f ->
  (forall x y s, x < w -> y < h -> dims s = [w; h] -> length (pix s) = w * h ->
    body x y s = Ok (match g x y with Some v => im_upd s (y * w + x) v | None => s end)) ->
  exists im', for_list (sg h w) (fun p s => let '(y, x) := p in body x y s) im = Ok im' /\
    Repr im' w h (fun x y => match g x y with Some v => v | None => f x y end).
Proof.
  intros Hs HI HB.
  apply (overlay_opt (sg h w) _ snd fst w h g); auto.
  - intros [y x] s Hp D L. apply (sched_in sg) in Hp; auto. apply HB; auto; apply Hp.
  - intros p Hp. apply (sched_in sg) in Hp; auto. tauto.
  - intros x y Hx Hy. exists (y, x). split; auto. apply (sched_in sg); auto.
Qed.

Lemma overlay_seq {A} s (body : nat -> nat -> image A -> res (image A)) w h (g : nat -> nat -> option A) im f :
  sched1_ok s -> Repr im w h f ->
  (forall x y st, x < w -> y < h -> dims st = [w; h] -> length (pix st) = w * h ->
    body x y st = Ok (match g x y with Some v => im_upd st (y * w + x) v | None => st end)) ->
  exists im', for_list (s (w * h)) (fun idx st => body (idx mod w) (idx / w) st) im = Ok im' /\
    Repr im' w h (fun x y => match g x y with Some v => v | None => f x y end).
Proof.
  intros Hs HI HB.
  assert (D : forall i, i < w * h -> i mod w < w /\ i / w < h).
  { intros i Hi. assert (w <> 0) by (intros ->; lia). split; [apply Nat.mod_upper_bound; auto|apply Nat.div_lt_upper_bound; auto]. }
  apply (overlay_opt (s (w * h)) _ (fun i => i mod w) (fun i => i / w) w h g); auto.
  - intros i st Hi Ds L. apply (sched1_in s) in Hi; auto. apply D in Hi. apply HB; auto; apply Hi.
  - intros i Hi. apply (sched1_in s) in Hi; auto.
  - intros x y Hx Hy. exists (y * w + x). split; [apply (sched1_in s); auto; nia|].
    split; [rewrite Nat.add_comm, Nat.mod_add by lia; apply Nat.mod_small; auto|].
    rewrite Nat.div_add_l by lia. rewrite Nat.div_small by auto. lia.
Qed.

Section Warp.
  Variable K : ofield.
  Add Field KF : (f_field K).
  Open Scope field_scope.
  Notation fn := (fnat K).
  Context {A : Type} (eps inv_eps : K) (d : A) (interp : image A -> K -> K -> res A).

  Definition form (f : nat -> nat -> K) (r x y : nat) : K := f r 0%nat * fn x + f r 1%nat * fn y + f r 2%nat.

  Lemma warp_ok sg src H f ow oh (v : nat -> nat -> A) : sched_ok sg -> MRepr H 3 3 f ->
    (forall x y, (x < ow)%nat -> (y < oh)%nat -> (fabs (form f 2 x y) <? eps) = false ->
      interp src (form f 0 x y / form f 2 x y) (form f 1 x y / form f 2 x y) = Ok (v x y)) ->
    exists out, warp_perspective K eps d interp sg src H ow oh = Ok out /\
      Repr out ow oh (fun x y => if fabs (form f 2 x y) <? eps then d else v x y).
  Proof.
    intros Hs MH Hv. unfold warp_perspective. rewrite (mat_empty3 K H f MH).
    destruct (overlay_grid sg (fun x y warped =>
          let* w := linear_form K H 2 (fn x) (fn y) in
          if fabs w <? eps then Ok warped
          else
            let* nx := linear_form K H 0 (fn x) (fn y) in
            let* ny := linear_form K H 1 (fn x) (fn y) in
            let* v := interp src (nx / w) (ny / w) in
            at_set warped [x; y] v) ow oh (fun x y => if fabs (form f 2 x y) <? eps then None else Some (v x y))
          (image_sizes d [ow; oh]) (fun _ _ => d) Hs (Repr_sizes d ow oh)) as (out & E & R).
    - intros x y s Hx Hy Ds L. rewrite (linear_form_ok K H f 2) by auto; cbn [bind]. fold (form f 2 x y).
      destruct (fabs (form f 2 x y) <? eps) eqn:Ew; auto.
      rewrite (linear_form_ok K H f 0) by auto; cbn [bind]. rewrite (linear_form_ok K H f 1) by auto; cbn [bind].
      fold (form f 0 x y) (form f 1 x y). rewrite Hv by auto; cbn [bind]. apply (at_set2_ok s ow oh); auto.
    - exists out; split; [exact E|]. eapply Repr_ext; eauto. intros x y _ _; cbn beta. destruct (fabs (form f 2 x y) <? eps); auto.
  Qed.

  Lemma warp_policy_ok s src H f Hi g ow oh (v : nat -> nat -> A) : sched1_ok s -> MRepr H 3 3 f ->
    invert K inv_eps H = Ok Hi -> MRepr Hi 3 3 g ->
    (forall x y, (x < ow)%nat -> (y < oh)%nat -> (eps <? fabs (form g 2 x y)) = true ->
      interp src (form g 0 x y / form g 2 x y) (form g 1 x y / form g 2 x y) = Ok (v x y)) ->
    exists out, warp_perspective_policy K eps d interp inv_eps s src H ow oh = Ok out /\
      Repr out ow oh (fun x y => if eps <? fabs (form g 2 x y) then v x y else d).
  Proof.
    intros Hs MH EI MI Hv. unfold warp_perspective_policy. rewrite (mat_empty3 K H f MH), EI; cbn [bind].
    rewrite (mat_empty3 K Hi g MI).
    destruct (overlay_seq s (fun x y warped =>
            let* w := linear_form K Hi 2 (fn x) (fn y) in
            if eps <? fabs w then
              let* nx := linear_form K Hi 0 (fn x) (fn y) in
              let* ny := linear_form K Hi 1 (fn x) (fn y) in
              let* v := interp src (nx / w) (ny / w) in
              at_set warped [x; y] v
            else Ok warped) ow oh (fun x y => if eps <? fabs (form g 2 x y) then Some (v x y) else None)
          (image_sizes d [ow; oh]) (fun _ _ => d) Hs (Repr_sizes d ow oh)) as (out & E & R).
    - intros x y st Hx Hy Ds L. rewrite (linear_form_ok K Hi g 2) by auto; cbn [bind]. fold (form g 2 x y).
      destruct (eps <? fabs (form g 2 x y)) eqn:Ew; auto.
      rewrite (linear_form_ok K Hi g 0) by auto; cbn [bind]. rewrite (linear_form_ok K Hi g 1) by auto; cbn [bind].
      fold (form g 0 x y) (form g 1 x y). rewrite Hv by auto; cbn [bind]. apply (at_set2_ok st ow oh); auto.
    - exists out; split; [exact E|]. eapply Repr_ext; eauto. intros x y _ _; cbn beta. destruct (eps <? fabs (form g 2 x y)); auto.
  Qed.

  Lemma warp_empty sg src H ow oh : mat_empty H = true -> warp_perspective K eps d interp sg src H ow oh = Ok (image_sizes d [ow; oh]).
  Proof. intros E; unfold warp_perspective; rewrite E; auto. Qed.
End Warp.

(** 3 by 3 products: an inverse on one side is the inverse on the other *)
Section Inverse.
  Variable K : ofield.
  Add Field KF2 : (f_field K).
  Open Scope field_scope.

  Definition delta (i j : nat) : K := if (i =? j)%nat then 1 else 0.

  Lemma mprod_assoc (a b c : nat -> nat -> K) i j : mprod K (mprod K a b) c i j = mprod K a (mprod K b c) i j.
  Proof. unfold mprod. ring. Qed.

  Lemma inverse_unique (a b c : nat -> nat -> K) :
    (forall i j, (i < 3)%nat -> (j < 3)%nat -> mprod K c a i j = delta i j) ->
    (forall i j, (i < 3)%nat -> (j < 3)%nat -> mprod K a b i j = delta i j) ->
    forall i j, (i < 3)%nat -> (j < 3)%nat -> b i j = c i j.
  Proof.
    intros H1 H2 i j Hi Hj.
    assert (E1 : mprod K (mprod K c a) b i j = b i j).
    { unfold mprod at 1. rewrite !H1 by lia. unfold delta.
      apply lt3 in Hi as [->|[->| ->]]; cbn [Nat.eqb]; ring. }
    assert (E2 : mprod K c (mprod K a b) i j = c i j).
    { unfold mprod at 1. rewrite !H2 by lia. unfold delta.
      apply lt3 in Hj as [->|[->| ->]]; cbn [Nat.eqb]; ring. }
    rewrite <- E1, mprod_assoc, E2. auto.
  Qed.

  (** the translation by (tx, ty), and its product with a matrix *)
  Definition shift_fun (tx ty : K) (i j : nat) : K :=
    if (i =? j)%nat then 1 else if (j =? 2)%nat then (if (i =? 0)%nat then tx else if (i =? 1)%nat then ty else 0) else 0.

  Lemma det3_shift tx ty : det3 K (shift_fun tx ty) = 1.
  Proof. unfold det3, shift_fun; cbn [Nat.eqb]. ring. Qed.

  Lemma shift_shift tx ty i j : (i < 3)%nat -> (j < 3)%nat -> mprod K (shift_fun (- tx) (- ty)) (shift_fun tx ty) i j = delta i j.
  Proof.
    intros Hi Hj. unfold mprod, shift_fun, delta.
    apply lt3 in Hi as [->|[->| ->]]; apply lt3 in Hj as [->|[->| ->]]; cbn [Nat.eqb]; ring.
  Qed.

  (** the inverse of a translated inverse *)
  Lemma inverse_shift (f g v : nat -> nat -> K) tx ty :
    (forall i j, (i < 3)%nat -> (j < 3)%nat -> mprod K f g i j = delta i j) ->
    (forall i j, (i < 3)%nat -> (j < 3)%nat -> mprod K (mprod K (shift_fun tx ty) g) v i j = delta i j) ->
    forall i j, (i < 3)%nat -> (j < 3)%nat -> v i j = mprod K f (shift_fun (- tx) (- ty)) i j.
  Proof.
    intros H1 H2. apply (inverse_unique (mprod K (shift_fun tx ty) g)); auto.
    intros i j Hi Hj. rewrite mprod_assoc. unfold mprod at 1.
    rewrite <- !mprod_assoc.
    assert (E : forall r, (r < 3)%nat -> mprod K (mprod K (shift_fun (- tx) (- ty)) (shift_fun tx ty)) g r j = g r j).
    { intros r Hr. unfold mprod at 1. rewrite !shift_shift by lia. unfold delta.
      apply lt3 in Hr as [->|[->| ->]]; cbn [Nat.eqb]; ring. }
    rewrite !E by lia. apply (H1 i j Hi Hj).
  Qed.

  Definition lin (f : nat -> nat -> K) (r : nat) (x y : K) : K := f r 0%nat * x + f r 1%nat * y + f r 2%nat.

  Lemma lin_shift f tx ty r x y : lin (mprod K f (shift_fun (- tx) (- ty))) r x y = lin f r (x - tx) (y - ty).
  Proof. unfold lin, mprod, shift_fun; cbn [Nat.eqb]. ring. Qed.
  Lemma shift_lin f tx ty x y :
    lin (mprod K (shift_fun tx ty) f) 0 x y = lin f 0 x y + tx * lin f 2 x y /\
    lin (mprod K (shift_fun tx ty) f) 1 x y = lin f 1 x y + ty * lin f 2 x y /\
    lin (mprod K (shift_fun tx ty) f) 2 x y = lin f 2 x y.
  Proof. unfold lin, mprod, shift_fun; cbn [Nat.eqb]. repeat split; ring. Qed.
End Inverse.

(** rational numbers *)
Lemma this_add (a b : Qc) : (this (a + b)%Qc == this a + this b)%Q. Proof. apply Qred_correct. Qed.
Lemma this_mul (a b : Qc) : (this (a * b)%Qc == this a * this b)%Q. Proof. apply Qred_correct. Qed.
Lemma this_opp (a : Qc) : (this (- a)%Qc == - this a)%Q. Proof. apply Qred_correct. Qed.
Lemma this_sub (a b : Qc) : (this (a - b)%Qc == this a - this b)%Q.
Proof. unfold Qcminus. rewrite this_add, this_opp. reflexivity. Qed.
Lemma this_inv (a : Qc) : (this (/ a)%Qc == / this a)%Q. Proof. apply Qred_correct. Qed.
Lemma this_div (a b : Qc) : (this (a / b)%Qc == this a / this b)%Q.
Proof. unfold Qcdiv. rewrite this_mul, this_inv. reflexivity. Qed.
Lemma this_Q2Qc (q : Q) : (this (Q2Qc q) == q)%Q. Proof. apply Qred_correct. Qed.
Lemma this_fnat n : (this (fnat Qcfield n : Qc) == qn n)%Q.
Proof.
  induction n as [|n IH]; [reflexivity|]. change (fnat Qcfield (S n)) with (fnat Qcfield n + Q2Qc 1)%Qc.
  rewrite this_add, IH, this_Q2Qc. replace (S n) with (n + 1)%nat by lia. rewrite qn_S. reflexivity.
Qed.
Lemma qcltb_true (a b : Qc) : @fltb Qcfield a b = true <-> (this a < this b)%Q.
Proof. apply qcltb_spec. Qed.
Lemma qcltb_nle (a b : Qc) : @fltb Qcfield a b = false <-> (this b <= this a)%Q.
Proof. apply qcltb_false. Qed.

Lemma trunc_floor q : (0 <= q)%Q -> trunc q = Qfloor q.
Proof.
  intros H. unfold trunc. destruct q as [n p]. unfold Qle in H; cbn in H. cbn [Qnum Qden Qfloor].
  apply Z.quot_div_nonneg; lia.
Qed.
Lemma trunc_to_size q : (-1 < q)%Q -> Z.to_nat (trunc q) = to_size q /\ (0 <= trunc q)%Z.
Proof.
  intros H. destruct (Qlt_le_dec q 0) as [N|P].
  - assert (T : trunc q = 0%Z).
    { unfold trunc. destruct q as [n p]. unfold Qlt in *; cbn in *. apply Z.quot_small_iff; lia. }
    rewrite T. split; [|lia]. unfold to_size.
    assert (Qfloor q < 0)%Z.
    { pose proof (Qfloor_le q) as L. apply Z.nle_gt. intros G. rewrite Zle_Qle in G.
      change (inject_Z 0) with 0%Q in G. lra. }
    lia.
  - rewrite trunc_floor by auto. split; auto. change 0%Z with (Qfloor 0); apply Qfloor_resp_le; auto.
Qed.

Section Cast.
  Variable oor : Qc -> res nat.
  Lemma cast_size_ok q : (-1 < this q)%Q -> (this q < inject_Z two64)%Q -> cast_size oor q = Ok (to_size (this q)).
  Proof.
    intros L U. unfold cast_size. destruct (trunc_to_size _ L) as [E N]. rewrite <- E.
    assert (trunc (this q) < two64)%Z.
    { destruct (Qlt_le_dec (this q) 0) as [Ng|P].
      - assert (trunc (this q) <= 0)%Z by (apply trunc_mono_hi; change (inject_Z 0) with 0%Q; lra). unfold two64; lia.
      - rewrite trunc_floor by auto. rewrite Zlt_Qlt. eapply Qle_lt_trans; [apply Qfloor_le|auto]. }
    replace ((0 <=? trunc (this q))%Z && (trunc (this q) <? two64)%Z) with true; auto.
    symmetry. apply andb_true_intro. split; [apply Z.leb_le; auto | apply Z.ltb_lt; auto].
  Qed.
  Lemma cast_size_out q : (this q <= -1)%Q -> cast_size oor q = oor q.
  Proof.
    intros L. unfold cast_size.
    assert (trunc (this q) <= -1)%Z by (apply trunc_mono_hi; exact L).
    replace (0 <=? trunc (this q))%Z with false by (symmetry; apply Z.leb_gt; lia). auto.
  Qed.
End Cast.

Lemma to_size_add q n : (0 <= q)%Q -> to_size (q + qn n) = to_size q + n.
Proof.
  intros H.
  assert (H' : (0 <= q + qn n)%Q) by (pose proof (qn_nonneg n); lra).
  destruct (to_size_spec q H) as [L1 L2]. destruct (to_size_spec (q + qn n) H') as [L3 L4].
  pose proof (qn_S (to_size q + n)) as E1. pose proof (qn_S (to_size (q + qn n))) as E2.
  assert (E3 : (qn (to_size q + n) == qn (to_size q) + qn n)%Q) by (unfold qn; rewrite Nat2Z.inj_add, inject_Z_plus; reflexivity).
  assert (A : (qn (to_size (q + qn n)) < qn (to_size q + n + 1))%Q) by lra.
  assert (B : (qn (to_size q + n) < qn (to_size (q + qn n) + 1))%Q) by lra.
  apply qn_lt in A, B. lia.
Qed.

(** the pixel of the first image under the output pixel [x], the first image starting at [t] *)
Definition under (t : Qc) (x : nat) : nat := to_size (qn x - this t).

Lemma under_lt t x w : (0 <= this t)%Q -> to_size (this t) <= x < to_size (this t) + w -> under t x < w.
Proof.
  intros Ht [L U]. unfold under. destruct (to_size_spec _ Ht) as [L1 L2].
  apply qn_lt in U. assert (E3 : (qn (to_size (this t) + w) == qn (to_size (this t)) + qn w)%Q) by (unfold qn; rewrite Nat2Z.inj_add, inject_Z_plus; reflexivity).
  destruct (Qlt_le_dec (qn x - this t) 0) as [N|P].
  - destruct (trunc_to_size (qn x - this t)) as [<- _].
    + apply qn_le in L. lra.
    + assert (trunc (qn x - this t) <= 0)%Z by (apply trunc_mono_hi; change (inject_Z 0) with 0%Q; lra).
      assert (0 < w); [|lia]. apply qn_lt. change (qn 0) with 0%Q. apply qn_le in L. lra.
  - destruct (to_size_spec _ P) as [L3 L4]. apply qn_lt. lra.
Qed.

Definition byte (z : Z) : Prop := (0 <= z <= 255)%Z.
Definition rgb (p : list Z) : Prop := length p = 3 /\ Forall byte p.

Lemma rgb_nth p : rgb p -> p = [nth 0 p 0%Z; nth 1 p 0%Z; nth 2 p 0%Z] /\ byte (nth 0 p 0%Z) /\ byte (nth 1 p 0%Z) /\ byte (nth 2 p 0%Z).
Proof.
  intros [L F]. destruct p as [|a [|b [|c [|]]]]; try discriminate. cbn [nth].
  inversion F as [|? ? A F1]; inversion F1 as [|? ? B F2]; inversion F2; subst; auto.
Qed.

(** the weighted mean of two bytes, rounded down *)
Definition mix (n w : nat) (a b : Z) : Z := ((a * (Z.of_nat w - Z.of_nat n) + b * Z.of_nat n) / Z.of_nat w)%Z.

Lemma blend_ok n w a b : n < w -> byte a -> byte b ->
  blend (fnat Qcfield n / fnat Qcfield w)%Qc a b = Ok (mix n w a b) /\ byte (mix n w a b).
Proof.
  intros H Ha Hb. unfold byte in *. unfold blend.
  assert (P : (0 < qn w)%Q) by (change 0%Q with (qn 0); apply qn_lt; lia).
  assert (E : (this (Q2Qc (inject_Z a) * (1 - fnat Qcfield n / fnat Qcfield w) + Q2Qc (inject_Z b) * (fnat Qcfield n / fnat Qcfield w))%Qc
     == inject_Z (a * (Z.of_nat w - Z.of_nat n) + b * Z.of_nat n) / inject_Z (Z.of_nat w))%Q).
  { rewrite this_add, !this_mul, this_sub, this_div, !this_fnat, !this_Q2Qc.
    change (this 1%Qc) with 1%Q. rewrite inject_Z_plus, !inject_Z_mult. unfold Z.sub. rewrite inject_Z_plus, inject_Z_opp.
    fold (qn n) (qn w). field. lra. }
  set (q := this _) in *. clearbody q.
  assert (M : (0 <= mix n w a b <= 255)%Z).
  { unfold mix. split; [apply Z.div_pos; nia|]. apply Z.lt_succ_r. apply Z.div_lt_upper_bound; nia. }
  assert (T : trunc q = mix n w a b).
  { rewrite trunc_floor.
    - rewrite (Qfloor_comp _ _ E). apply Qfloor_div. lia.
    - rewrite E. apply Qle_shift_div_l; auto. rewrite Qmult_0_l. change 0%Q with (inject_Z 0). rewrite <- Zle_Qle. nia. }
  rewrite T. split; auto.
  replace ((0 <=? mix n w a b)%Z && (mix n w a b <=? 255)%Z) with true; auto. symmetry. apply andb_true_intro; split; apply Z.leb_le; lia.
Qed.

(** the output pixel, given the two pictures *)
Definition content (p : list Z) : bool := existsb (fun c => (5 <? c)%Z) p.
Definition mix_rgb (n w : nat) (a b : list Z) : list Z := map (fun c => mix n w (fst c) (snd c)) (combine a b).

Definition covers (t : Qc) (n x : nat) : bool := (to_size (this t) <=? x) && (x <? to_size (this t) + n).
Definition stitched (w1 h1 : nat) (p1 : nat -> nat -> list Z) (tx ty : Qc) (x y : nat) (warped : list Z) : option (list Z) :=
  if covers tx w1 x && covers ty h1 y then
    if content warped then Some (mix_rgb (under tx x) w1 (p1 (under tx x) (under ty y)) warped)
    else Some (p1 (under tx x) (under ty y))
  else if content warped then Some warped else None.

Section Pixel.
  Variable oor : Qc -> res nat.

  Lemma stitch_pixel_gen img1 warped w1 h1 p1 ow oh pw tx ty x y :
    Repr img1 w1 h1 p1 -> (forall i j, i < w1 -> j < h1 -> rgb (p1 i j)) ->
    Repr warped ow oh pw -> (forall i j, i < ow -> j < oh -> rgb (pw i j)) ->
    (0 <= this tx)%Q -> (0 <= this ty)%Q -> (this tx + qn w1 < inject_Z two64)%Q -> (this ty + qn h1 < inject_Z two64)%Q ->
    (Z.of_nat ow <= two64)%Z -> (Z.of_nat oh <= two64)%Z -> x < ow -> y < oh ->
    (exists n, cast_size oor (fnat Qcfield x - tx)%Qc = Ok n /\ (to_size (this tx) <= x -> n = under tx x)) ->
    (exists n, cast_size oor (fnat Qcfield y - ty)%Qc = Ok n /\ (to_size (this ty) <= y -> n = under ty y)) ->
    stitch_pixel oor img1 warped w1 h1 tx ty x y = Ok (stitched w1 h1 p1 tx ty x y (pw x y)).
  Proof.
    intros R1 B1 Rw Bw Tx Ty Fx Fy Fw Fh Hx Hy (nx & Enx & Nx) (ny & Eny & Ny). unfold stitch_pixel.
    assert (S : forall t n, (0 <= this t)%Q -> (this t + qn n < inject_Z two64)%Q ->
      cast_size oor t = Ok (to_size (this t)) /\ cast_size oor (t + fnat Qcfield n)%Qc = Ok (to_size (this t) + n)).
    { intros t n Ht Hf. pose proof (qn_nonneg n).
      assert (E : (this (t + fnat Qcfield n)%Qc == this t + qn n)%Q) by (rewrite this_add, this_fnat; reflexivity).
      split; [apply cast_size_ok; lra|]. rewrite cast_size_ok by (rewrite E; lra).
      rewrite (to_size_comp _ _ E), to_size_add; auto. }
    destruct (S tx w1 Tx Fx) as [-> ->]. destruct (S ty h1 Ty Fy) as [-> ->]. cbn [bind].
    rewrite (at_Repr warped ow oh pw) by auto. cbn [bind].
    destruct (rgb_nth _ (Bw x y Hx Hy)) as (Ep & Hb0 & Hb1 & Hb2). set (p := pw x y) in *.
    set (c0 := nth 0 p 0%Z) in *. set (c1 := nth 1 p 0%Z) in *. set (c2 := nth 2 p 0%Z) in *. clearbody c0 c1 c2 p. subst p.
    cbn [vget nth_error bind].
    rewrite Enx, Eny. cbn [bind].
    unfold stitched, covers.
    replace ((to_size (this tx) <=? x) && (x <? to_size (this tx) + w1) && (to_size (this ty) <=? y) && (y <? to_size (this ty) + h1))
      with ((to_size (this tx) <=? x) && (x <? to_size (this tx) + w1) && ((to_size (this ty) <=? y) && (y <? to_size (this ty) + h1))) by (rewrite !Bool.andb_assoc; auto).
    replace ((5 <? c0)%Z || (5 <? c1)%Z || (5 <? c2)%Z) with (content [c0; c1; c2]) by (unfold content; cbn [existsb]; rewrite Bool.orb_false_r, Bool.orb_assoc; auto).
    destruct ((to_size (this tx) <=? x) && (x <? to_size (this tx) + w1) && ((to_size (this ty) <=? y) && (y <? to_size (this ty) + h1))) eqn:C1; cbn [andb].
    - apply andb_prop in C1 as [C1 C2]. apply andb_prop in C1 as [X1 X2]. apply andb_prop in C2 as [Y1 Y2].
      apply Nat.leb_le in X1, Y1. apply Nat.ltb_lt in X2, Y2. rewrite Nx, Ny by auto.
      pose proof (under_lt tx x w1 Tx (conj X1 X2)) as Ux. pose proof (under_lt ty y h1 Ty (conj Y1 Y2)) as Uy.
      rewrite (at_Repr img1 w1 h1 p1) by auto. cbn [bind].
      destruct (content [c0; c1; c2]); auto.
      destruct (rgb_nth _ (B1 _ _ Ux Uy)) as (Eq & A0 & A1 & A2). set (p := p1 (under tx x) (under ty y)) in *.
      set (a0 := nth 0 p 0%Z) in *. set (a1 := nth 1 p 0%Z) in *. set (a2 := nth 2 p 0%Z) in *. clearbody a0 a1 a2 p. subst p.
      cbn [vget nth_error bind].
      destruct (blend_ok (under tx x) w1 a0 c0) as [-> _]; auto. destruct (blend_ok (under tx x) w1 a1 c1) as [-> _]; auto.
      destruct (blend_ok (under tx x) w1 a2 c2) as [-> _]; auto.
    - destruct (content [c0; c1; c2]); auto.
  Qed.

  (** one with a denominator in range *)
  Lemma cast_near t x : (0 <= this t)%Q -> (Z.of_nat x < two64)%Z -> (-1 < qn x - this t)%Q ->
    exists n, cast_size oor (fnat Qcfield x - t)%Qc = Ok n /\ (to_size (this t) <= x -> n = under t x).
  Proof.
    intros Ht Hx G.
    assert (E : (this (fnat Qcfield x - t)%Qc == qn x - this t)%Q) by (rewrite this_sub, this_fnat; reflexivity).
    eexists; split; [apply cast_size_ok; [lra|]|].
    - assert (qn x < inject_Z two64)%Q by (unfold qn; rewrite <- Zlt_Qlt; auto). lra.
    - intros _. unfold under. apply to_size_comp; auto.
  Qed.

  (** one that is not: the result of the conversion is the result *)
  Lemma stitch_pixel_out img1 warped w1 h1 ow oh pw tx ty x y : (forall q, oor q = UB) ->
    Repr warped ow oh pw -> (forall i j, i < ow -> j < oh -> rgb (pw i j)) ->
    x < ow -> y < oh -> (qn x - this tx <= -1 \/ qn y - this ty <= -1)%Q ->
    stitch_pixel oor img1 warped w1 h1 tx ty x y = UB.
  Proof.
    intros HU Rw Bw Hx Hy Hout. unfold stitch_pixel.
    assert (C : forall q, (exists n, cast_size oor q = Ok n) \/ cast_size oor q = UB).
    { intros q. unfold cast_size. destruct ((0 <=? trunc (this q))%Z && (trunc (this q) <? two64)%Z); eauto. }
    destruct (C tx) as [(n1 & ->)| ->]; cbn [bind]; auto. destruct (C (tx + fnat Qcfield w1)%Qc) as [(n2 & ->)| ->]; cbn [bind]; auto.
    rewrite (at_Repr warped ow oh pw) by auto. cbn [bind].
    destruct (rgb_nth _ (Bw x y Hx Hy)) as (Ep & _). rewrite Ep. cbn [vget nth_error bind].
    assert (O : forall z t, (qn z - this t <= -1)%Q -> cast_size oor (fnat Qcfield z - t)%Qc = UB).
    { intros z t Ht. rewrite cast_size_out; auto. rewrite this_sub, this_fnat. exact Ht. }
    destruct Hout as [Ho|Ho].
    - rewrite (O x tx Ho). reflexivity.
    - destruct (C (fnat Qcfield x - tx)%Qc) as [(n3 & ->)| ->]; cbn [bind]; auto. rewrite (O y ty Ho). reflexivity.
  Qed.

  Hypothesis oor_total : forall q, exists n, oor q = Ok n.

  (** the conversion of an output position that lies left of the first image is some number, which is not used *)
  Lemma cast_under t x : (0 <= this t)%Q -> (Z.of_nat x < two64)%Z ->
    exists n, cast_size oor (fnat Qcfield x - t)%Qc = Ok n /\ (to_size (this t) <= x -> n = under t x).
  Proof.
    intros Ht Hx.
    assert (E : (this (fnat Qcfield x - t)%Qc == qn x - this t)%Q) by (rewrite this_sub, this_fnat; reflexivity).
    destruct (Qlt_le_dec (-1) (this (fnat Qcfield x - t)%Qc)) as [G|L].
    - eexists; split; [apply cast_size_ok; auto|].
      + rewrite E. apply (proj2 (Qlt_minus_iff _ _)).
        assert (qn x < inject_Z two64)%Q by (unfold qn; rewrite <- Zlt_Qlt; auto). lra.
      + intros _. unfold under. apply to_size_comp; auto.
    - rewrite cast_size_out by auto. destruct (oor_total (fnat Qcfield x - t)%Qc) as (n & En). exists n; split; auto.
      intros G. exfalso. apply qn_le in G. destruct (to_size_spec _ Ht) as [_ U]. lra.
  Qed.

  Lemma stitch_pixel_ok img1 warped w1 h1 p1 ow oh pw tx ty x y :
    Repr img1 w1 h1 p1 -> (forall i j, i < w1 -> j < h1 -> rgb (p1 i j)) ->
    Repr warped ow oh pw -> (forall i j, i < ow -> j < oh -> rgb (pw i j)) ->
    (0 <= this tx)%Q -> (0 <= this ty)%Q -> (this tx + qn w1 < inject_Z two64)%Q -> (this ty + qn h1 < inject_Z two64)%Q ->
    (Z.of_nat ow <= two64)%Z -> (Z.of_nat oh <= two64)%Z -> x < ow -> y < oh ->
    stitch_pixel oor img1 warped w1 h1 tx ty x y = Ok (stitched w1 h1 p1 tx ty x y (pw x y)).
  Proof.
    intros. eapply stitch_pixel_gen; eauto; apply cast_under; auto; lia.
  Qed.
End Pixel.

(** the least and greatest of a start value and a list *)
Definition lowest (a : Qc) (vs : list Qc) : Qc := fold_left (fun m v => if @fltb Qcfield v m then v else m) vs a.
Definition highest (a : Qc) (vs : list Qc) : Qc := fold_left (fun m v => if @fltb Qcfield m v then v else m) vs a.

Lemma lowest_spec : forall vs a, (forall v, In v (a :: vs) -> (this (lowest a vs) <= this v)%Q) /\ In (lowest a vs) (a :: vs).
Proof.
  induction vs as [|u vs IH]; intros a.
  - split; [intros v [<-|[]]; apply Qle_refl | left; auto].
  - change (lowest a (u :: vs)) with (lowest (if @fltb Qcfield u a then u else a) vs).
    destruct (IH (if @fltb Qcfield u a then u else a)) as [L I]. set (m := lowest _ vs) in *. clearbody m.
    assert (U : (this m <= this u)%Q /\ (this m <= this a)%Q).
    { pose proof (L _ (or_introl eq_refl)) as L0. destruct (@fltb Qcfield u a) eqn:E.
      - apply qcltb_true in E. lra.
      - apply qcltb_nle in E. lra. }
    split.
    + intros v [<-|[<-|Hv]]; [tauto|tauto|]. apply L; right; auto.
    + destruct I as [<-|I]; [destruct (@fltb Qcfield u a); cbn; auto | right; right; auto].
Qed.
Lemma highest_spec : forall vs a, (forall v, In v (a :: vs) -> (this v <= this (highest a vs))%Q) /\ In (highest a vs) (a :: vs).
Proof.
  induction vs as [|u vs IH]; intros a.
  - split; [intros v [<-|[]]; apply Qle_refl | left; auto].
  - change (highest a (u :: vs)) with (highest (if @fltb Qcfield a u then u else a) vs).
    destruct (IH (if @fltb Qcfield a u then u else a)) as [L I]. set (m := highest _ vs) in *. clearbody m.
    assert (U : (this u <= this m)%Q /\ (this a <= this m)%Q).
    { pose proof (L _ (or_introl eq_refl)) as L0. destruct (@fltb Qcfield a u) eqn:E.
      - apply qcltb_true in E. lra.
      - apply qcltb_nle in E. lra. }
    split.
    + intros v [<-|[<-|Hv]]; [tauto|tauto|]. apply L; right; auto.
    + destruct I as [<-|I]; [destruct (@fltb Qcfield a u); cbn; auto | right; right; auto].
Qed.

Definition corners (w h : nat) : list (nat * nat) := [(0, 0); (w - 1, 0); (0, h - 1); (w - 1, h - 1)].
Definition plin (f : nat -> nat -> Qcfield) (r : nat) (p : nat * nat) : Qc := lin Qcfield f r (fnat Qcfield (fst p)) (fnat Qcfield (snd p)).
Definition pproj (f : nat -> nat -> Qcfield) (r : nat) (p : nat * nat) : Qc := (plin f r p / plin f 2 p)%Qc.

Definition bounds (g : nat -> nat -> Qcfield) (w1 h1 w2 h2 : nat) : Qc * Qc * Qc * Qc :=
  let xs := map (pproj g 0) (corners w2 h2) in let ys := map (pproj g 1) (corners w2 h2) in
  (lowest (Q2Qc 0) xs, highest (fnat Qcfield w1) xs, lowest (Q2Qc 0) ys, highest (fnat Qcfield h1) ys).

Lemma to_size_pred n : 0 < n -> to_size (this (fnat Qcfield n - 1)%Qc) = n - 1.
Proof.
  intros H. rewrite <- (to_size_qn (n - 1)). apply to_size_comp. rewrite this_sub, this_fnat. change (this 1%Qc) with 1%Q.
  replace n with (n - 1 + 1) at 1 by lia. rewrite qn_S. ring.
Qed.

Section Canvas.
  Variable oor : Qc -> res nat.

  Lemma cast_pred n : 0 < n -> (Z.of_nat n < two64)%Z -> cast_size oor (fnat Qcfield n - 1)%Qc = Ok (n - 1).
  Proof.
    intros H F. rewrite <- to_size_pred by auto.
    assert (E : (this (fnat Qcfield n - 1)%Qc == qn n - 1)%Q) by (rewrite this_sub, this_fnat; reflexivity).
    assert (qn 1 <= qn n)%Q by (apply qn_le; lia). change (qn 1) with 1%Q in *.
    assert (qn n < inject_Z two64)%Q by (unfold qn; rewrite <- Zlt_Qlt; auto).
    apply cast_size_ok; lra.
  Qed.

  Lemma canvas_bounds_ok H g w1 h1 w2 h2 : MRepr H 3 3 g -> 0 < w2 -> 0 < h2 -> (Z.of_nat w2 < two64)%Z -> (Z.of_nat h2 < two64)%Z ->
    (forall p, In p (corners w2 h2) -> plin g 2 p <> Q2Qc 0) ->
    canvas_bounds oor H w1 h1 w2 h2 = Ok (bounds g w1 h1 w2 h2).
  Proof.
    intros MH W2 H2 F2 F2' N. unfold canvas_bounds. rewrite !cast_pred by auto. cbn [bind]. fold (corners w2 h2).
    unfold bounds.
    match goal with |- for_list _ ?bd _ = _ => assert (G : forall l a b c e, (forall p, In p l -> plin g 2 p <> Q2Qc 0) ->
      for_list l bd (a, b, c, e) = Ok (lowest a (map (pproj g 0) l), highest b (map (pproj g 0) l), lowest c (map (pproj g 1) l), highest e (map (pproj g 1) l))) end.
    { clear N. induction l as [|p l IH]; intros a b c e N; auto.
      cbn [for_list map].
      rewrite (linear_form_ok Qcfield H g 2) by auto. cbn [bind].
      fold (lin Qcfield g 2 (fnat Qcfield (fst p)) (fnat Qcfield (snd p))). fold (plin g 2 p).
      destruct (Qc_eq_bool (plin g 2 p) (Q2Qc 0)) eqn:E.
      { exfalso. apply (N p (or_introl eq_refl)). apply Qc_eq_bool_correct in E. exact E. }
      rewrite (linear_form_ok Qcfield H g 0) by auto. cbn [bind]. rewrite (linear_form_ok Qcfield H g 1) by auto. cbn [bind].
      fold (lin Qcfield g 1 (fnat Qcfield (fst p)) (fnat Qcfield (snd p))).
      fold (lin Qcfield g 0 (fnat Qcfield (fst p)) (fnat Qcfield (snd p))).
      fold (plin g 1 p) (plin g 0 p). fold (pproj g 0 p) (pproj g 1 p).
      rewrite IH by (intros; apply N; right; auto). reflexivity. }
    apply G; auto.
  Qed.
End Canvas.

Lemma translation_ok tx ty : exists T, translation tx ty = Ok T /\ MRepr T 3 3 (shift_fun Qcfield tx ty).
Proof.
  unfold translation. pose proof (mat_new_MRepr (Q2Qc 0 : Qcfield) 3 3) as R0.
  do 8 (match goal with Hr : MRepr ?mm 3 3 ?ff |- context [mat_set ?mm ?a ?b ?v] =>
      let m' := fresh "m" in let E := fresh in let R' := fresh "R" in
      destruct (mat_set_ok mm 3 3 ff a b v Hr) as (m' & E & R'); [lia | lia |]; rewrite E; cbn [bind]; clear E end).
  match goal with Hr : MRepr ?mm 3 3 ?ff |- context [mat_set ?mm ?a ?b ?v] =>
      destruct (mat_set_ok mm 3 3 ff a b v Hr) as (mf & Ef & Rf); [lia | lia |] end.
  exists mf. split; [exact Ef|]. eapply MRepr_ext; [exact Rf|].
  intros i j Hi Hj. unfold fset, shift_fun. apply lt3 in Hi as [->|[->| ->]]; apply lt3 in Hj as [->|[->| ->]]; reflexivity.
Qed.

Lemma mult3_ok (K : ofield) a b f g : MRepr a 3 3 f -> MRepr b 3 3 g ->
  exists m, multiply (@f0 K) fadd fmul a b = Ok m /\ MRepr m 3 3 (mprod K f g).
Proof.
  intros Ra Rb. destruct (multiply_spec f0 fadd fmul a b 3 3 3 f g Ra Rb) as (ab & E & R).
  exists ab; split; auto. eapply MRepr_ext; [exact R|]. intros i j _ _. unfold bsum, mprod; cbn [seq fold_left].
  pose proof (f_field K) as FK. destruct FK as [FR _ _ _]. rewrite (Radd_0_l FR). auto.
Qed.

Lemma div_shift (a w t : Qc) : w <> Q2Qc 0 -> ((a + t * w) / w = a / w + t)%Qc.
Proof. intros NZ. field. exact NZ. Qed.

Definition extent (lo hi : Qc) : nat := Z.to_nat (Qceiling (this (hi - lo)%Qc)).

Section Stitch.
  Variables eps inv_eps : Qcfield.
  Variable interp : image (list Z) -> Qcfield -> Qcfield -> res (list Z).
  Variable oor : Qc -> res nat.
  Hypothesis Heps : (0 <? eps)%F = true.
  Hypothesis Hinv : (0 <? inv_eps)%F = true.
  Variables (img1 img2 : image (list Z)) (w1 h1 w2 h2 : nat) (p1 p2 : nat -> nat -> list Z).
  Hypothesis R1 : Repr img1 w1 h1 p1.
  Hypothesis R2 : Repr img2 w2 h2 p2.
  Hypothesis B1 : forall i j, i < w1 -> j < h1 -> rgb (p1 i j).
  Variable sample : Qc -> Qc -> list Z.
  Hypothesis Hsample : forall X Y, interp img2 X Y = Ok (sample X Y) /\ rgb (sample X Y).
  Hypothesis W2 : 0 < w2. Hypothesis H2 : 0 < h2.
  Hypothesis F2 : (Z.of_nat w2 < two64)%Z. Hypothesis F2' : (Z.of_nat h2 < two64)%Z.
  Variables (H_in H : matrix Qcfield) (f g : nat -> nat -> Qcfield).
  Hypothesis MF : MRepr H_in 3 3 f.
  Hypothesis EH : invert Qcfield inv_eps H_in = Ok H.
  Hypothesis MG : MRepr H 3 3 g.
  Hypothesis N : forall p, In p (corners w2 h2) -> plin g 2 p <> Q2Qc 0.
  Variables (min_x max_x min_y max_y : Qc).
  Hypothesis Hb : bounds g w1 h1 w2 h2 = (min_x, max_x, min_y, max_y).
  Hypothesis Sx : (this max_x - this min_x <= inject_Z (two64 - 1))%Q.
  Hypothesis Sy : (this max_y - this min_y <= inject_Z (two64 - 1))%Q.

  Lemma bounds_facts : (this min_x <= 0)%Q /\ (this min_y <= 0)%Q /\ (qn w1 <= this max_x)%Q /\ (qn h1 <= this max_y)%Q.
  Proof.
    pose proof Hb as Hq. unfold bounds in Hq. cbv zeta in Hq. rewrite !pair_equal_spec in Hq. destruct Hq as [[[E1 E2] E3] E4].
    rewrite <- E1, <- E2, <- E3, <- E4.
    pose proof (proj1 (lowest_spec (map (pproj g 0) (corners w2 h2)) (Q2Qc 0)) _ (or_introl eq_refl)) as A1.
    pose proof (proj1 (lowest_spec (map (pproj g 1) (corners w2 h2)) (Q2Qc 0)) _ (or_introl eq_refl)) as A2.
    pose proof (proj1 (highest_spec (map (pproj g 0) (corners w2 h2)) (fnat Qcfield w1)) _ (or_introl eq_refl)) as A3.
    pose proof (proj1 (highest_spec (map (pproj g 1) (corners w2 h2)) (fnat Qcfield h1)) _ (or_introl eq_refl)) as A4.
    rewrite this_fnat in A3, A4. change (this (Q2Qc 0)) with 0%Q in *. auto.
  Qed.

  Lemma extent_ok lo hi n : (this lo <= 0)%Q -> (qn n <= this hi)%Q -> (this hi - this lo <= inject_Z (two64 - 1))%Q ->
    cast_size oor (Q2Qc (inject_Z (Qceiling (this (hi - lo)%Qc)))) = Ok (extent lo hi) /\ (Z.of_nat (extent lo hi) < two64)%Z.
  Proof.
    intros L U S. pose proof (qn_nonneg n) as Nn. unfold extent.
    assert (E : (this (hi - lo)%Qc == this hi - this lo)%Q) by apply this_sub.
    set (c := Qceiling (this (hi - lo)%Qc)).
    assert (C1 : (0 <= c)%Z).
    { unfold c. change 0%Z with (Qceiling 0). apply Qceiling_resp_le. rewrite E. lra. }
    assert (C2 : (c <= two64 - 1)%Z).
    { unfold c. rewrite <- (Qceiling_Z (two64 - 1)). apply Qceiling_resp_le. rewrite E. auto. }
    split; [|lia].
    assert (Ec : (this (Q2Qc (inject_Z c)) == inject_Z c)%Q) by apply this_Q2Qc.
    rewrite cast_size_ok.
    - f_equal. rewrite (to_size_comp _ _ Ec). unfold to_size. rewrite Qfloor_Z. auto.
    - rewrite Ec. apply Qlt_le_trans with 0%Q; [reflexivity|]. change 0%Q with (inject_Z 0). rewrite <- Zle_Qle; auto.
    - rewrite Ec. rewrite <- Zlt_Qlt. lia.
  Qed.

  Let tx : Qc := (- min_x)%Qc. Let ty : Qc := (- min_y)%Qc.
  Let ow := extent min_x max_x. Let oh := extent min_y max_y.

  Lemma t_nonneg : (0 <= this tx)%Q /\ (0 <= this ty)%Q /\ (this tx + qn w1 < inject_Z two64)%Q /\ (this ty + qn h1 < inject_Z two64)%Q.
  Proof.
    destruct bounds_facts as (A & B & C & D). unfold tx, ty.
    assert (Ex : (this (- min_x)%Qc == - this min_x)%Q) by apply this_opp. assert (Ey : (this (- min_y)%Qc == - this min_y)%Q) by apply this_opp.
    assert (X : (inject_Z (two64 - 1) < inject_Z two64)%Q) by (rewrite <- Zlt_Qlt; lia).
    repeat split; lra.
  Qed.

  (** what the output shows, the second image being read at [src x y] with denominator [den x y] *)
  Definition shown (black : Qc -> bool) (den : nat -> nat -> Qc) (src : nat -> nat -> Qc * Qc) (x y : nat) : list Z :=
    let warped := if black (den x y) then rgb0 else sample (fst (src x y)) (snd (src x y)) in
    match stitched w1 h1 p1 tx ty x y warped with Some v => v | None => rgb0 end.

  Lemma rgb0_rgb : rgb rgb0. Proof. split; auto. repeat constructor; lia. Qed.

  Let Lp r x y : Qc := lin Qcfield f r (fnat Qcfield x) (fnat Qcfield y).
  Let Ls r x y : Qc := lin Qcfield f r (fnat Qcfield x - tx)%Qc (fnat Qcfield y - ty)%Qc.

  Definition seq_warped (x y : nat) : list Z := if @fltb Qcfield (@fabs Qcfield (Lp 2 x y)) eps then rgb0 else
    sample (Lp 0 x y / Lp 2 x y + tx)%Qc (Lp 1 x y / Lp 2 x y + ty)%Qc.
  Definition policy_warped (x y : nat) : list Z := if @fltb Qcfield eps (@fabs Qcfield (Ls 2 x y)) then
    sample (Ls 0 x y / Ls 2 x y)%Qc (Ls 1 x y / Ls 2 x y)%Qc else rgb0.

  (** everything before the last loop *)
  Lemma stitch_seq_loop sg1 sg2 : sched_ok sg1 ->
    exists warped, Repr warped ow oh seq_warped /\ create_stitched_image eps inv_eps interp oor sg1 sg2 img1 img2 H_in =
      for_list (sg2 oh ow) (fun p out => let '(y, x) := p in
        let* o := stitch_pixel oor img1 warped w1 h1 tx ty x y in write_pixel out x y o) (image_sizes rgb0 [ow; oh]).
  Proof.
    intros Hs1. unfold create_stitched_image. rewrite (mat_empty3 Qcfield H_in f MF), EH. cbn [bind].
    rewrite (mat_empty3 Qcfield H g MG).
    rewrite (get_width_Repr img2 w2 h2 p2), (get_height_Repr img2 w2 h2 p2), (get_width_Repr img1 w1 h1 p1), (get_height_Repr img1 w1 h1 p1) by auto.
    cbn [bind]. rewrite (canvas_bounds_ok oor H g) by auto. rewrite Hb. cbn [bind].
    destruct bounds_facts as (A & B & C & D). destruct t_nonneg as (T1 & T2 & T3 & T4).
    destruct (extent_ok min_x max_x w1 A C Sx) as [-> Fw]. destruct (extent_ok min_y max_y h1 B D Sy) as [-> Fh]. cbn [bind].
    fold tx ty. fold ow oh. destruct (translation_ok tx ty) as (T & -> & MT). cbn [bind].
    destruct (mult3_ok Qcfield T H_in _ _ MT MF) as (HF & -> & MHF). cbn [bind].
    set (m := mprod Qcfield (shift_fun Qcfield tx ty) f) in *.
    destruct (warp_ok Qcfield eps rgb0 interp sg1 img2 HF m ow oh
      (fun x y => sample (Lp 0 x y / Lp 2 x y + tx)%Qc (Lp 1 x y / Lp 2 x y + ty)%Qc) Hs1 MHF) as (warped & -> & RW).
    { intros x y Hx Hy Ew. destruct (shift_lin Qcfield f tx ty (fnat Qcfield x) (fnat Qcfield y)) as (E0 & E1 & E2).
      change (form Qcfield m 0 x y) with (lin Qcfield m 0 (fnat Qcfield x) (fnat Qcfield y)).
      change (form Qcfield m 1 x y) with (lin Qcfield m 1 (fnat Qcfield x) (fnat Qcfield y)).
      change (form Qcfield m 2 x y) with (lin Qcfield m 2 (fnat Qcfield x) (fnat Qcfield y)) in *.
      fold m in E0, E1, E2. rewrite E2 in Ew. rewrite E0, E1, E2. fold (Lp 0 x y) (Lp 1 x y) (Lp 2 x y) in *.
      assert (NZ : Lp 2 x y <> Q2Qc 0).
      { intros E. rewrite E in Ew. change (Q2Qc 0) with (@f0 Qcfield) in Ew. rewrite fabs_0 in Ew. congruence. }
      rewrite <- (proj1 (Hsample (Lp 0 x y / Lp 2 x y + tx)%Qc (Lp 1 x y / Lp 2 x y + ty)%Qc)).
      f_equal; apply div_shift; exact NZ. }
    cbn [bind].
    exists warped. split; [|reflexivity]. eapply Repr_ext; eauto. intros x y _ _. unfold seq_warped.
    replace (form Qcfield m 2 x y) with (Lp 2 x y); auto.
    destruct (shift_lin Qcfield f tx ty (fnat Qcfield x) (fnat Qcfield y)) as (E0 & E1 & E2). symmetry. exact E2.
  Qed.

  Lemma seq_warped_rgb i j : rgb (seq_warped i j).
  Proof. unfold seq_warped. destruct (@fltb Qcfield (@fabs Qcfield (Lp 2 i j)) eps); [apply rgb0_rgb|apply Hsample]. Qed.
  Lemma policy_warped_rgb i j : rgb (policy_warped i j).
  Proof. unfold policy_warped. destruct (@fltb Qcfield eps (@fabs Qcfield (Ls 2 i j))); [apply Hsample|apply rgb0_rgb]. Qed.

  Lemma canvas_fits : (Z.of_nat ow < two64)%Z /\ (Z.of_nat oh < two64)%Z.
  Proof.
    destruct bounds_facts as (A & B & C & D).
    split; [apply (extent_ok min_x max_x w1 A C Sx)|apply (extent_ok min_y max_y h1 B D Sy)].
  Qed.

  (** the last loop when every conversion has a value *)
  Lemma last_pixel warped pw x y s : (forall q, exists n, oor q = Ok n) -> Repr warped ow oh pw -> (forall i j, rgb (pw i j)) -> x < ow -> y < oh ->
    dims s = [ow; oh] -> length (pix s) = ow * oh ->
    (let* o := stitch_pixel oor img1 warped w1 h1 tx ty x y in write_pixel s x y o) =
    Ok (match stitched w1 h1 p1 tx ty x y (pw x y) with Some v => im_upd s (y * ow + x) v | None => s end).
  Proof.
    intros oor_total RW Bw Hx Hy Ds L. destruct t_nonneg as (T1 & T2 & T3 & T4). destruct canvas_fits as [Fw Fh].
    rewrite (stitch_pixel_ok oor oor_total img1 warped w1 h1 p1 ow oh pw) by (auto; lia).
    cbn [bind]. unfold write_pixel. destruct (stitched w1 h1 p1 tx ty x y (pw x y)); auto. apply (at_set2_ok s ow oh); auto.
  Qed.

  (** when an out-of-range conversion is undefined and the second picture starts a pixel or more to the left or above *)
  Lemma last_pixel_near warped pw x y s : Repr warped ow oh pw -> (forall i j, rgb (pw i j)) -> x < ow -> y < oh ->
    dims s = [ow; oh] -> length (pix s) = ow * oh -> (-1 < qn x - this tx)%Q -> (-1 < qn y - this ty)%Q ->
    (let* o := stitch_pixel oor img1 warped w1 h1 tx ty x y in write_pixel s x y o) =
    Ok (match stitched w1 h1 p1 tx ty x y (pw x y) with Some v => im_upd s (y * ow + x) v | None => s end).
  Proof.
    intros RW Bw Hx Hy Ds L Nx Ny. destruct t_nonneg as (T1 & T2 & T3 & T4). destruct canvas_fits as [Fw Fh].
    rewrite (stitch_pixel_gen oor img1 warped w1 h1 p1 ow oh pw) by (auto; first [lia | apply cast_near; auto; lia]).
    cbn [bind]. unfold write_pixel. destruct (stitched w1 h1 p1 tx ty x y (pw x y)); auto. apply (at_set2_ok s ow oh); auto.
  Qed.

  Lemma last_pixel_cases warped pw x y s : (forall q, oor q = UB) -> Repr warped ow oh pw -> (forall i j, rgb (pw i j)) -> x < ow -> y < oh ->
    dims s = [ow; oh] -> length (pix s) = ow * oh ->
    (exists s', (let* o := stitch_pixel oor img1 warped w1 h1 tx ty x y in write_pixel s x y o) = Ok s' /\ dims s' = [ow; oh] /\ length (pix s') = ow * oh) \/
    (let* o := stitch_pixel oor img1 warped w1 h1 tx ty x y in write_pixel s x y o) = UB.
  Proof.
    intros HU RW Bw Hx Hy Ds L.
    destruct (Qlt_le_dec (-1) (qn x - this tx)) as [Nx|Nx]; [destruct (Qlt_le_dec (-1) (qn y - this ty)) as [Ny|Ny]|].
    - left. eexists; split; [eapply last_pixel_near; eauto|].
      destruct (stitched w1 h1 p1 tx ty x y (pw x y)); auto. split; [exact Ds|]. unfold im_upd; cbn [pix]. rewrite list_upd_length. auto.
    - right. rewrite (stitch_pixel_out oor img1 warped w1 h1 ow oh pw); auto.
    - right. rewrite (stitch_pixel_out oor img1 warped w1 h1 ow oh pw); auto.
  Qed.

  Lemma loop_ub {I} (l : list I) (body : I -> image (list Z) -> res (image (list Z))) :
    (forall i s, In i l -> dims s = [ow; oh] -> length (pix s) = ow * oh ->
      (exists s', body i s = Ok s' /\ dims s' = [ow; oh] /\ length (pix s') = ow * oh) \/ body i s = UB) ->
    (exists i, In i l /\ forall s, dims s = [ow; oh] -> length (pix s) = ow * oh -> body i s = UB) ->
    forall s, dims s = [ow; oh] -> length (pix s) = ow * oh -> for_list l body s = UB.
  Proof.
    induction l as [|i l IH]; intros HB (k & Hk & HU) s Ds L; [destruct Hk|]. cbn [for_list].
    destruct (HB i s (or_introl eq_refl) Ds L) as [(s' & E & D' & L')|E]; rewrite E; cbn [bind]; auto.
    apply IH; auto.
    - intros j s0 Hj. apply HB; right; auto.
    - destruct Hk as [<-|Hk]; [rewrite HU in E by auto; discriminate|eauto].
  Qed.

  Lemma corner_in : 0 < w1 -> 0 < h1 -> 0 < ow /\ 0 < oh.
  Proof.
    intros P1 P2. destruct bounds_facts as (A & B & C & D).
    assert (G : forall lo hi n, 0 < n -> (this lo <= 0)%Q -> (qn n <= this hi)%Q -> 0 < extent lo hi).
    { intros lo hi n Hn Hl Hh. unfold extent.
      assert (qn 1 <= qn n)%Q by (apply qn_le; lia). change (qn 1) with 1%Q in *.
      assert (E : (1 <= this (hi - lo)%Qc)%Q) by (rewrite this_sub; lra).
      apply Qceiling_resp_le in E. change (Qceiling 1) with 1%Z in E. lia. }
    split; [apply (G _ _ w1)|apply (G _ _ h1)]; auto.
  Qed.

  Lemma ub_first : (this min_x <= -1 \/ this min_y <= -1)%Q -> (qn 0 - this tx <= -1 \/ qn 0 - this ty <= -1)%Q.
  Proof.
    unfold tx, ty. intros [Hm|Hm]; [left|right]; rewrite this_opp; change (qn 0) with 0%Q; lra.
  Qed.

  Lemma stitch_seq_ub sg1 sg2 : (forall q, oor q = UB) -> sched_ok sg1 -> sched_ok sg2 -> 0 < w1 -> 0 < h1 ->
    (this min_x <= -1 \/ this min_y <= -1)%Q ->
    create_stitched_image eps inv_eps interp oor sg1 sg2 img1 img2 H_in = UB.
  Proof.
    intros HU Hs1 Hs2 P1 P2 Hm. destruct (corner_in P1 P2) as [Pw Ph].
    destruct (stitch_seq_loop sg1 sg2 Hs1) as (warped & RW & ->).
    pose proof (Repr_sizes rgb0 ow oh) as (Dz & Lz & _).
    apply loop_ub; auto.
    - intros [y x] s Hp Ds L. apply (sched_in sg2) in Hp; auto. destruct Hp as [Hy Hx].
      apply (last_pixel_cases warped seq_warped); auto. apply seq_warped_rgb.
    - exists (0, 0). split; [apply (sched_in sg2); auto|]. intros s Ds L.
      rewrite (stitch_pixel_out oor img1 warped w1 h1 ow oh seq_warped); auto.
      + intros; apply seq_warped_rgb.
      + apply ub_first; auto.
  Qed.

  Lemma stitch_seq_ok sg1 sg2 : (forall q, exists n, oor q = Ok n) -> sched_ok sg1 -> sched_ok sg2 ->
    exists out, create_stitched_image eps inv_eps interp oor sg1 sg2 img1 img2 H_in = Ok out /\
      Repr out ow oh (shown (fun w => @fltb Qcfield (@fabs Qcfield w) eps) (Lp 2)
        (fun x y => ((Lp 0 x y / Lp 2 x y + tx)%Qc, (Lp 1 x y / Lp 2 x y + ty)%Qc))).
  Proof.
    intros oor_total Hs1 Hs2. destruct (stitch_seq_loop sg1 sg2 Hs1) as (warped & RW & ->).
    destruct (overlay_grid sg2 (fun x y out => let* o := stitch_pixel oor img1 warped w1 h1 tx ty x y in write_pixel out x y o) ow oh
      (fun x y => stitched w1 h1 p1 tx ty x y (seq_warped x y)) (image_sizes rgb0 [ow; oh]) (fun _ _ => rgb0) Hs2 (Repr_sizes rgb0 ow oh)) as (out & E & R).
    - intros x y s Hx Hy Ds L. apply last_pixel; auto. apply seq_warped_rgb.
    - exists out. split; [exact E|]. eapply Repr_ext; [exact R|]. intros x y _ _. unfold shown, seq_warped. cbn [fst snd].
      destruct (@fltb Qcfield (@fabs Qcfield (Lp 2 x y)) eps); reflexivity.
  Qed.

  Lemma stitch_policy_loop s1 s2 : sched1_ok s1 ->
    (forall i j, i < 3 -> j < 3 -> mprod Qcfield f g i j = delta Qcfield i j) ->
    @fltb Qcfield (@fabs Qcfield (det3 Qcfield g)) inv_eps = false ->
    exists warped, Repr warped ow oh policy_warped /\ create_stitched_image_policy eps inv_eps interp oor s1 s2 img1 img2 H_in =
      for_list (s2 (ow * oh)) (fun idx out => let y := idx / ow in let x := idx mod ow in
        let* o := stitch_pixel oor img1 warped w1 h1 tx ty x y in write_pixel out x y o) (image_sizes rgb0 [ow; oh]).
  Proof.
    intros Hs1 Hfg Hdet. unfold create_stitched_image_policy. rewrite (mat_empty3 Qcfield H_in f MF), EH. cbn [bind].
    rewrite (mat_empty3 Qcfield H g MG).
    rewrite (get_width_Repr img2 w2 h2 p2), (get_height_Repr img2 w2 h2 p2), (get_width_Repr img1 w1 h1 p1), (get_height_Repr img1 w1 h1 p1) by auto.
    cbn [bind]. rewrite (canvas_bounds_ok oor H g) by auto. rewrite Hb. cbn [bind].
    destruct bounds_facts as (A & B & C & D). destruct t_nonneg as (T1 & T2 & T3 & T4).
    destruct (extent_ok min_x max_x w1 A C Sx) as [-> Fw]. destruct (extent_ok min_y max_y h1 B D Sy) as [-> Fh]. cbn [bind].
    fold tx ty. fold ow oh. destruct (translation_ok tx ty) as (T & -> & MT). cbn [bind].
    destruct (mult3_ok Qcfield T H _ _ MT MG) as (HF & -> & MHF). cbn [bind].
    set (m := mprod Qcfield (shift_fun Qcfield tx ty) g) in *.
    assert (Dm : @fltb Qcfield (@fabs Qcfield (det3 Qcfield m)) inv_eps = false).
    { unfold m. rewrite det3_mprod, det3_shift. replace (fmul f1 (det3 Qcfield g)) with (det3 Qcfield g); auto.
      symmetry. apply Qcmult_1_l. }
    destruct (invert_spec Qcfield inv_eps HF m MHF Hinv Dm) as (Hi & v & EI & MI & V1 & V2).
    pose proof (inverse_shift Qcfield f g v tx ty Hfg V1) as Ev.
    assert (Lv : forall r x y, (r < 3)%nat -> form Qcfield v r x y = Ls r x y).
    { intros r x y Hr. change (form Qcfield v r x y) with (lin Qcfield v r (fnat Qcfield x) (fnat Qcfield y)).
      unfold Ls. change (fnat Qcfield x - tx)%Qc with (@fsub Qcfield (fnat Qcfield x) tx). change (fnat Qcfield y - ty)%Qc with (@fsub Qcfield (fnat Qcfield y) ty).
      rewrite <- lin_shift. unfold lin. rewrite !Ev by lia. reflexivity. }
    destruct (warp_policy_ok Qcfield eps inv_eps rgb0 interp s1 img2 HF m Hi v ow oh
      (fun x y => sample (Ls 0 x y / Ls 2 x y)%Qc (Ls 1 x y / Ls 2 x y)%Qc) Hs1 MHF EI MI) as (warped & -> & RW).
    { intros x y Hx Hy Ew. rewrite !Lv by lia. apply Hsample. }
    cbn [bind].
    exists warped. split; [|reflexivity]. eapply Repr_ext; eauto. intros x y _ _. unfold policy_warped.
    rewrite Lv by lia. reflexivity.
  Qed.

  Lemma stitch_policy_ub s1 s2 : (forall q, oor q = UB) -> sched1_ok s1 -> sched1_ok s2 -> 0 < w1 -> 0 < h1 ->
    (this min_x <= -1 \/ this min_y <= -1)%Q ->
    (forall i j, i < 3 -> j < 3 -> mprod Qcfield f g i j = delta Qcfield i j) ->
    @fltb Qcfield (@fabs Qcfield (det3 Qcfield g)) inv_eps = false ->
    create_stitched_image_policy eps inv_eps interp oor s1 s2 img1 img2 H_in = UB.
  Proof.
    intros HU Hs1 Hs2 P1 P2 Hm Hfg Hdet. destruct (corner_in P1 P2) as [Pw Ph].
    destruct (stitch_policy_loop s1 s2 Hs1 Hfg Hdet) as (warped & RW & ->).
    pose proof (Repr_sizes rgb0 ow oh) as (Dz & Lz & _).
    apply loop_ub; auto.
    - intros i s Hi Ds L. apply (sched1_in s2) in Hi; auto. cbv zeta.
      apply (last_pixel_cases warped policy_warped); auto; [intros; apply policy_warped_rgb|apply Nat.mod_upper_bound; lia|apply Nat.div_lt_upper_bound; lia].
    - exists 0. split; [apply (sched1_in s2); auto; nia|]. intros s Ds L. cbv zeta. rewrite Nat.div_small, Nat.mod_small by auto.
      rewrite (stitch_pixel_out oor img1 warped w1 h1 ow oh policy_warped); auto.
      + intros; apply policy_warped_rgb.
      + apply ub_first; auto.
  Qed.

  Lemma stitch_policy_ok s1 s2 : (forall q, exists n, oor q = Ok n) -> sched1_ok s1 -> sched1_ok s2 ->
    (forall i j, i < 3 -> j < 3 -> mprod Qcfield f g i j = delta Qcfield i j) ->
    @fltb Qcfield (@fabs Qcfield (det3 Qcfield g)) inv_eps = false ->
    exists out, create_stitched_image_policy eps inv_eps interp oor s1 s2 img1 img2 H_in = Ok out /\
      Repr out ow oh (shown (fun w => negb (@fltb Qcfield eps (@fabs Qcfield w))) (Ls 2)
        (fun x y => ((Ls 0 x y / Ls 2 x y)%Qc, (Ls 1 x y / Ls 2 x y)%Qc))).
  Proof.
    intros oor_total Hs1 Hs2 Hfg Hdet. destruct (stitch_policy_loop s1 s2 Hs1 Hfg Hdet) as (warped & RW & ->).
    destruct (overlay_seq s2 (fun x y out => let* o := stitch_pixel oor img1 warped w1 h1 tx ty x y in write_pixel out x y o) ow oh
      (fun x y => stitched w1 h1 p1 tx ty x y (policy_warped x y)) (image_sizes rgb0 [ow; oh]) (fun _ _ => rgb0) Hs2 (Repr_sizes rgb0 ow oh)) as (out & E & R).
    - intros x y s Hx Hy Ds L. apply last_pixel; auto. apply policy_warped_rgb.
    - exists out. split; [exact E|]. eapply Repr_ext; eauto. intros x y _ _. unfold shown, policy_warped. cbn [fst snd].
      destruct (@fltb Qcfield eps (@fabs Qcfield (Ls 2 x y))); reflexivity.
  Qed.
End Stitch.

(** ** the default interpolator of RGB images never fails and gives three bytes *)
Lemma bilinear_byte im x y v : bilinear_interpolate inject_Z (fin_int 0 255) 0%Z im x y = Ok v -> byte v.
Proof.
  assert (F : forall q, byte (fin_int 0 255 q)).
  { intros q. unfold fin_int, byte. destruct (Qltb (inject_Z 255) q) eqn:E1; [lia|]. destruct (Qltb q (inject_Z 0)) eqn:E2; [lia|].
    apply Qltb_ge in E1, E2. split; [apply trunc_mono_lo|apply trunc_mono_hi]; auto. }
  unfold bilinear_interpolate. destruct (get_width im) as [w| |]; cbn [bind]; try discriminate.
  destruct (get_height im) as [h| |]; cbn [bind]; try discriminate.
  destruct (Qltb x 0 || Qltb (qn w - 1) x || Qltb y 0 || Qltb (qn h - 1) y); [intros E; injection E as <-; unfold byte; lia|].
  do 4 (match goal with |- context [let* a := at_ ?i ?l in _] => destruct (at_ i l); cbn [bind]; try discriminate end).
  intros E; injection E as <-. apply F.
Qed.
Lemma bicubic_byte im x y v : bicubic_interpolate inject_Z (fin_int 0 255) 0%Z im x y = Ok v -> byte v.
Proof.
  assert (F : forall q, byte (fin_int 0 255 q)).
  { intros q. unfold fin_int, byte. destruct (Qltb (inject_Z 255) q) eqn:E1; [lia|]. destruct (Qltb q (inject_Z 0)) eqn:E2; [lia|].
    apply Qltb_ge in E1, E2. split; [apply trunc_mono_lo|apply trunc_mono_hi]; auto. }
  unfold bicubic_interpolate. destruct (get_width im) as [w| |]; cbn [bind]; try discriminate.
  destruct (get_height im) as [h| |]; cbn [bind]; try discriminate.
  destruct (Qltb x 1 || Qle_bool (qn w - 2) x || Qltb y 1 || Qle_bool (qn h - 2) y); [apply bilinear_byte|].
  destruct (for_range 4 _ 0%Q) as [t| |]; cbn [bind]; try discriminate. intros E; injection E as <-. apply F.
Qed.

Lemma rgb_bicubic_ok im w h p x y : Repr im w h p -> 0 < w -> 0 < h -> (forall i j, i < w -> j < h -> rgb (p i j)) ->
  exists v, rgb_bicubic im x y = Ok v /\ rgb v.
Proof.
  intros R Hw Hh B. unfold rgb_bicubic.
  assert (G : forall k, k < 3 -> exists v, (let* pl := get_plane seq0 0%Z im k in
     bicubic_interpolate inject_Z (fin_int 0 255) 0%Z pl (this (x : Qc)) (this (y : Qc))) = Ok v /\ byte v).
  { intros k Hk. pose proof (proj1 (Repr_ReprN im w h p) R) as RN.
    destruct (get_plane_ReprN seq0 sched1_seq0 0%Z im [w; h] _ k (fun l => nth k (p (nth 0 l 0) (nth 1 l 0)) 0%Z) RN) as (o & E & Ro).
    - cbn. nia.
    - intros idx HI. destruct idx as [|i [|j [|? ?]]]; try (apply in_range_length in HI; simpl in HI; lia).
      apply in_range2 in HI. cbn [nth]. apply nth_error_nth'. rewrite (proj1 (B i j (proj1 HI) (proj2 HI))). auto.
    - rewrite E. cbn [bind].
      assert (Ro2 : Repr o w h (fun i j => nth k (p i j) 0%Z)) by (apply Repr_ReprN; exact Ro).
      destruct (bicubic_total inject_Z (fin_int 0 255) 0%Z o w h _ (this (x : Qc)) (this (y : Qc)) Ro2) as (v & Ev).
      exists v; split; auto. eapply bicubic_byte; eauto. }
  destruct (G 0) as (a & Ea & Ba); [lia|]. destruct (G 1) as (b & Eb & Bb); [lia|]. destruct (G 2) as (c & Ec & Bc); [lia|].
  exists [a; b; c]. split; [|split; auto].
  cbn [mapM]. rewrite Ea, Eb, Ec. reflexivity.
Qed.
