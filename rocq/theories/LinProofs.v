(** LinProofs.v - lemmas about matrices and linear systems (LinModel). *)
From Coq Require Import ZifyBool ZifyNat Ring Field.
From Verif Require Import Base ImageModel ImageFacts PixelModel PixelProofs BigSum OField LinModel.
Open Scope nat_scope.

(** ** matrices as functions of row and column *)
Definition MRepr {A} (m : matrix A) (r c : nat) (f : nat -> nat -> A) : Prop :=
  rows m = r /\ cols m = c /\ length (data m) = r * c /\
  forall i j, i < r -> j < c -> nth_error (data m) (i * c + j) = Some (f i j).

Definition mat_wf {A} (m : matrix A) : Prop := length (data m) = rows m * cols m.

Lemma mat_wf_MRepr {A} (d : A) m : mat_wf m -> MRepr m (rows m) (cols m) (fun i j => nth (i * cols m + j) (data m) d).
Proof.
  intros H; repeat split; auto; intros i j Hi Hj; apply nth_error_nth'; rewrite H; nia.
Qed.

Lemma MRepr_wf {A} (m : matrix A) r c f : MRepr m r c f -> mat_wf m.
Proof. intros (<- & <- & H & _); exact H. Qed.

Lemma MRepr_ext {A} (m : matrix A) r c f g : MRepr m r c f -> (forall i j, i < r -> j < c -> f i j = g i j) -> MRepr m r c g.
Proof. intros (H1 & H2 & H3 & H4) E; repeat split; auto; intros; rewrite H4, E; auto. Qed.

Lemma MRepr_eq {A} (m1 m2 : matrix A) r c f g : MRepr m1 r c f -> MRepr m2 r c g ->
  (forall i j, i < r -> j < c -> f i j = g i j) -> m1 = m2.
Proof.
  intros (H1 & H2 & H3 & H4) (G1 & G2 & G3 & G4) E; destruct m1 as [r1 c1 d1], m2 as [r2 c2 d2]; cbn [rows cols data] in *; subst r1 c1 r2 c2.
  f_equal; apply nth_error_ext_len; [congruence|]; intros k Hk; rewrite H3 in Hk.
  assert (C0 : c <> 0) by (intros ->; rewrite Nat.mul_0_r in Hk; inversion Hk).
  assert (Hq : k / c < r) by (apply Nat.div_lt_upper_bound; auto; rewrite Nat.mul_comm; auto).
  pose proof (Nat.mod_upper_bound k c C0) as Hm; pose proof (Nat.div_mod k c C0) as Ek.
  rewrite Nat.mul_comm in Ek; rewrite Ek, H4, G4, E; auto.
Qed.

Lemma MRepr_fun {A} (m : matrix A) r c f g : MRepr m r c f -> MRepr m r c g -> forall i j, i < r -> j < c -> f i j = g i j.
Proof. intros (_ & _ & _ & H) (_ & _ & _ & G) i j Hi Hj; specialize (H i j Hi Hj); specialize (G i j Hi Hj); congruence. Qed.

Lemma mat_at_ok {A} (m : matrix A) r c f i j : MRepr m r c f -> i < r -> j < c -> mat_at m i j = Ok (f i j).
Proof. intros (_ & E & _ & H) Hi Hj; unfold mat_at, vget; rewrite E, H; auto. Qed.

Lemma mat_new_MRepr {A} (z : A) r c : MRepr (mat_new z r c) r c (fun _ _ => z).
Proof.
  repeat split; cbn [mat_new rows cols data]; [apply repeat_length|]; intros i j Hi Hj; apply nth_error_repeat_some; nia.
Qed.

(** the function after one write *)
Definition fset {A} (f : nat -> nat -> A) (a b : nat) (v : A) : nat -> nat -> A :=
  fun i j => if (i =? a) && (j =? b) then v else f i j.

Lemma mat_set_ok {A} (m : matrix A) r c f a b v : MRepr m r c f -> a < r -> b < c ->
  exists m', mat_set m a b v = Ok m' /\ MRepr m' r c (fset f a b v).
Proof.
  intros (H1 & H2 & H3 & H4) Ha Hb; unfold mat_set; rewrite H2, vset_ok by (rewrite H3; nia); cbn [bind].
  eexists; split; [reflexivity|]; repeat split; cbn [rows cols data]; auto; [rewrite list_upd_length; auto|].
  intros i j Hi Hj; unfold fset.
  destruct (Nat.eqb_spec i a) as [->|Ni]; destruct (Nat.eqb_spec j b) as [->|Nj]; cbn [andb].
  - rewrite list_upd_same; auto; rewrite H3; nia.
  - rewrite list_upd_other by lia; auto.
  - rewrite list_upd_other by nia; auto.
  - rewrite list_upd_other by nia; auto.
Qed.

(** a loop of writes that covers the matrix *)
Lemma mfill {A I} (l : list I) (pos : I -> nat * nat) (val : I -> A) body r c g : forall m f,
  MRepr m r c f ->
  (forall i s h, In i l -> MRepr s r c h -> body i s = mat_set s (fst (pos i)) (snd (pos i)) (val i)) ->
  (forall i, In i l -> fst (pos i) < r /\ snd (pos i) < c /\ val i = g (fst (pos i)) (snd (pos i))) ->
  (forall a b, a < r -> b < c -> f a b = g a b \/ exists i, In i l /\ pos i = (a, b)) ->
  exists m', for_list l body m = Ok m' /\ MRepr m' r c g.
Proof.
  induction l as [|i l IH]; intros m f R HB HP HC.
  - exists m; split; auto; eapply MRepr_ext; eauto; intros a b Ha Hb; destruct (HC a b Ha Hb) as [E|(i & [] & _)]; auto.
  - cbn [for_list]; destruct (HP i) as (P1 & P2 & P3); [simpl; auto|].
    rewrite (HB i m f) by (simpl; auto).
    destruct (mat_set_ok m r c f _ _ (val i) R P1 P2) as (m1 & -> & R1); cbn [bind].
    apply (IH m1 _ R1).
    + intros; eapply HB; simpl; eauto.
    + intros; apply HP; simpl; auto.
    + intros a b Ha Hb; unfold fset.
      destruct (Nat.eqb_spec a (fst (pos i))) as [->|Na]; destruct (Nat.eqb_spec b (snd (pos i))) as [->|Nb]; cbn [andb]; auto.
      all: destruct (HC _ _ Ha Hb) as [E|(i' & [<-|Hi'] & E)]; auto; [rewrite E in *; cbn [fst snd] in *; tauto | right; exists i'; auto].
Qed.

Lemma mfill_grid {A} (z : A) h w (pos : nat * nat -> nat * nat) (val : nat -> nat -> A) body r c g :
  (forall y x s f, y < h -> x < w -> MRepr s r c f -> body y x s = mat_set s (fst (pos (y, x))) (snd (pos (y, x))) (val y x)) ->
  (forall y x, y < h -> x < w -> fst (pos (y, x)) < r /\ snd (pos (y, x)) < c /\ val y x = g (fst (pos (y, x))) (snd (pos (y, x)))) ->
  (forall a b, a < r -> b < c -> exists y x, y < h /\ x < w /\ pos (y, x) = (a, b)) ->
  exists m', for_range h (fun y s => for_range w (fun x s => body y x s) s) (mat_new z r c) = Ok m' /\ MRepr m' r c g.
Proof.
  intros HB HP HC; rewrite for_range_nested.
  eapply (mfill _ pos (fun p => val (fst p) (snd p))).
  - apply mat_new_MRepr.
  - intros [y x] s f Hi R; apply in_grid in Hi as [Hy Hx]; cbn [fst snd]; eapply HB; eauto.
  - intros [y x] Hi; apply in_grid in Hi as [Hy Hx]; apply HP; auto.
  - intros a b Ha Hb; right; destruct (HC a b Ha Hb) as (y & x & Hy & Hx & E); exists (y, x); split; auto; apply in_grid; auto.
Qed.

Lemma transpose_spec {A} (z : A) m r c f : MRepr m r c f -> exists t, transpose z m = Ok t /\ MRepr t c r (fun i j => f j i).
Proof.
  intros R; pose proof R as (Er & Ec & _); unfold transpose; rewrite Er, Ec.
  apply (mfill_grid z r c (fun p => (snd p, fst p)) f).
  - intros y x s g Hy Hx _; cbn [fst snd]; rewrite (mat_at_ok _ _ _ _ _ _ R) by auto; reflexivity.
  - intros y x Hy Hx; cbn [fst snd]; auto.
  - intros a b Ha Hb; exists b, a; auto.
Qed.

Lemma multiply_spec {A} (z : A) add mul a b r n c f g : MRepr a r n f -> MRepr b n c g ->
  exists m, multiply z add mul a b = Ok m /\ MRepr m r c (fun i j => bsum z add (fun k => mul (f i k) (g k j)) (seq 0 n)).
Proof.
  intros Ra Rb; pose proof Ra as (Er & Ec & _); pose proof Rb as (Gr & Gc & _); unfold multiply.
  rewrite Er, Ec, Gr, Gc, Nat.eqb_refl; cbn [negb].
  apply (mfill_grid z r c (fun p => p) (fun i j => bsum z add (fun k => mul (f i k) (g k j)) (seq 0 n))); auto.
  - intros i j s h Hi Hj _; cbn [fst snd].
    assert (E : for_range n (fun k s => let* x := mat_at a i k in let* y := mat_at b k j in Ok (add s (mul x y))) z =
                Ok (bsum z add (fun k => mul (f i k) (g k j)) (seq 0 n))).
    { unfold for_range, bsum.
      destruct (for_list_fold (fun _ => True) (fun k s => add s (mul (f i k) (g k j))) (seq 0 n)
        (fun k s => let* x := mat_at a i k in let* y := mat_at b k j in Ok (add s (mul x y))) z) as [E _]; auto.
      intros k s' Hk _; apply in_seq in Hk; rewrite (mat_at_ok _ _ _ _ _ _ Ra), (mat_at_ok _ _ _ _ _ _ Rb) by lia; auto. }
    rewrite E; reflexivity.
  - intros i j Hi Hj; exists i, j; auto.
Qed.

(** ** symmetry *)
Lemma symmetric_row_spec {A} (differ : A -> A -> bool) m n f r : MRepr m n n f -> r < n ->
  exists ok, symmetric_row differ m r = Ok ok /\
    (ok = true <-> forall c, r < c < n -> differ (f r c) (f c r) = false).
Proof.
  intros R Hr; pose proof R as (_ & Ec & _); unfold symmetric_row; rewrite Ec.
  assert (G : forall l b, (forall c, In c l -> r < c < n) ->
    exists ok, for_list l (fun c ok => if ok : bool then let* v1 := mat_at m r c in let* v2 := mat_at m c r in Ok (negb (differ v1 v2)) else Ok false) b = Ok ok /\
      (ok = true <-> b = true /\ forall c, In c l -> differ (f r c) (f c r) = false)).
  { induction l as [|c l IH]; intros b Hl; cbn [for_list].
    - exists b; split; auto; split; intros; [split; auto; intros c [] | tauto].
    - assert (Hc : r < c < n) by (apply Hl; simpl; auto).
      destruct b.
      + rewrite (mat_at_ok _ _ _ _ _ _ R), (mat_at_ok _ _ _ _ _ _ R) by lia; cbn [bind].
        destruct (IH (negb (differ (f r c) (f c r)))) as (ok & E & S); [intros; apply Hl; simpl; auto|].
        exists ok; split; auto; rewrite S; split.
        * intros [H1 H2]; split; auto; intros c' [<-|Hc']; auto; destruct (differ (f r c) (f c r)); auto; discriminate.
        * intros [_ H]; split; [rewrite H; simpl; auto | intros; apply H; simpl; auto].
      + cbn [bind]; destruct (IH false) as (ok & E & S); [intros; apply Hl; simpl; auto|].
        exists ok; split; auto; rewrite S; split; intros [H1 _]; discriminate. }
  destruct (G (seq (r + 1) (n - (r + 1))) true) as (ok & E & S); [intros c Hc; apply in_seq in Hc; lia|].
  exists ok; split; auto; rewrite S; split.
  - intros [_ H] c Hc; apply H, in_seq; lia.
  - intros H; split; auto; intros c Hc; apply in_seq in Hc; apply H; lia.
Qed.

Lemma is_symmetry_spec {A} (differ : A -> A -> bool) m r c f : MRepr m r c f ->
  exists ok, is_symmetry differ m = Ok ok /\
    (ok = true <-> r = c /\ forall i j, i < j < r -> differ (f i j) (f j i) = false).
Proof.
  intros R; pose proof R as (Er & Ec & _); unfold is_symmetry; rewrite Er, Ec.
  destruct (Nat.eqb_spec r c) as [->|N]; cbn [negb]; [|exists false; split; auto; split; [discriminate | tauto]].
  destruct (for_range_inv c (fun k b => b = true <-> forall i j, i < k -> i < j < c -> differ (f i j) (f j i) = false)
    (fun r ok => if ok : bool then symmetric_row differ m r else Ok false) true) as (ok & E & S).
  - split; auto; intros; lia.
  - intros k b Hk Hb; destruct b.
    + destruct (symmetric_row_spec differ m c f k R Hk) as (ok & E & S); exists ok; split; auto; rewrite S; split.
      * intros H i j Hi Hj; destruct (Nat.eq_dec i k) as [->|Ni]; [apply H; lia | apply Hb; auto; lia].
      * intros H j Hj; apply H; lia.
    + exists false; split; auto; split; [discriminate|]; intros H; apply Hb; intros i j Hi Hj; apply H; lia.
  - exists ok; split; auto; rewrite S; split.
    + intros H; split; auto; intros i j Hij; apply H; lia.
    + intros [_ H] i j Hi Hj; apply H; lia.
Qed.

Lemma is_symmetry_policy_spec {A} (differ : A -> A -> bool) s m r c f : sched1_ok s -> MRepr m r c f ->
  is_symmetry_policy differ s m = is_symmetry differ m.
Proof.
  intros Hs R; destruct (is_symmetry_spec differ m r c f R) as (ok & E & S); rewrite E.
  pose proof R as (Er & Ec & _); unfold is_symmetry_policy; rewrite Er, Ec.
  unfold is_symmetry in E; rewrite Er, Ec in E.
  destruct (Nat.eqb_spec r c) as [->|N]; cbn [negb] in *; [|exact E].
  assert (G : forall l b, (forall i, In i l -> i < c) -> exists any,
    for_list l (fun r any => let* ok := symmetric_row differ m r in Ok (any || negb ok)) b = Ok any /\
      (any = false <-> b = false /\ forall i j, In i l -> i < j < c -> differ (f i j) (f j i) = false)).
  { induction l as [|i l IH]; intros b Hl; cbn [for_list].
    - exists b; split; auto; split; intros; [split; auto; intros ? ? [] | tauto].
    - destruct (symmetric_row_spec differ m c f i R) as (o & -> & So); [apply Hl; simpl; auto|]; cbn [bind].
      destruct (IH (b || negb o)) as (any & -> & Sa); [intros; apply Hl; simpl; auto|].
      exists any; split; auto; rewrite Sa, orb_false_iff, negb_false_iff, So; split.
      + intros [[H1 H2] H3]; split; auto; intros i' j [<-|Hi'] Hj; auto.
      + intros [H1 H2]; split; [split; auto|]; intros; apply H2; simpl; auto. }
  destruct (G (s c) false) as (any & -> & Sa); [intros i Hi; eapply sched1_in in Hi; eauto|]; cbn [bind].
  f_equal; destruct ok, any; auto; cbn [negb]; exfalso.
  - assert (true = false); [|discriminate]; apply Sa; split; auto; intros i j Hi Hj.
    destruct (proj1 S eq_refl) as [_ H]; apply H; lia.
  - assert (false = true); [|discriminate]; apply S; split; auto; intros i j Hij.
    destruct (proj1 Sa eq_refl) as [_ H]; apply H; [eapply sched1_in; eauto; lia | lia].
Qed.
