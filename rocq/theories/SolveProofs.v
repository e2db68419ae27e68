(** SolveProofs.v - lemmas about solve_linear_system (LinModel). *)
From Coq Require Import ZifyBool ZifyNat Ring Field.
From Verif Require Import Base BigSum OField LinModel.
Open Scope nat_scope.

Lemma for_seq_inv {S} (a n : nat) (Inv : nat -> S -> Prop) (body : nat -> S -> res S) s :
  Inv a s ->
  (forall i s, a <= i < a + n -> Inv i s -> exists s', body i s = Ok s' /\ Inv (Datatypes.S i) s') ->
  exists s', for_list (seq a n) body s = Ok s' /\ Inv (a + n) s'.
Proof.
  revert a s; induction n as [|n IH]; intros a s H0 HS; cbn [seq for_list].
  - exists s; rewrite Nat.add_0_r; auto.
  - destruct (HS a s) as (s1 & E & H1); auto; [lia|]; rewrite E; cbn [bind].
    destruct (IH (Datatypes.S a) s1) as (s2 & E2 & H2); auto; [intros; apply HS; auto; lia|].
    exists s2; split; auto; rewrite Nat.add_succ_r; exact H2.
Qed.

Lemma for_rev_inv {S} (n : nat) (Inv : nat -> S -> Prop) (body : nat -> S -> res S) : forall s,
  Inv n s ->
  (forall i s, i < n -> Inv (Datatypes.S i) s -> exists s', body i s = Ok s' /\ Inv i s') ->
  exists s', for_list (rev (seq 0 n)) body s = Ok s' /\ Inv 0 s'.
Proof.
  induction n as [|n IH]; intros s H0 HS.
  - exists s; auto.
  - rewrite seq_S, rev_app_distr; cbn [rev app for_list Nat.add].
    destruct (HS n s) as (s1 & E & H1); auto; rewrite E; cbn [bind]; apply IH; auto.
Qed.

Section Solve.
  Variable K : ofield.
  Add Field KF : (f_field K).
  Open Scope field_scope.
  Notation sum := (bsum (0 : K) fadd).

  Lemma add0r (a : K) : a + 0 = a. Proof. ring. Qed.
  Lemma addC (a b : K) : a + b = b + a. Proof. ring. Qed.
  Lemma addA (a b c : K) : a + (b + c) = a + b + c. Proof. ring. Qed.

  Lemma sum_cons {I} (f : I -> K) i l : sum f (i :: l) = f i + sum f l.
  Proof. apply bsum_cons; [apply add0r | apply addC | apply addA]. Qed.
  Lemma sum_app {I} (f : I -> K) l1 l2 : sum f (l1 ++ l2) = sum f l1 + sum f l2.
  Proof. apply bsum_app; [apply add0r | apply addC | apply addA]. Qed.
  Lemma sum_zero {I} (f : I -> K) l : (forall i, In i l -> f i = 0) -> sum f l = 0.
  Proof. apply bsum_zero; apply add0r. Qed.
  Lemma sum_ext {I} (f g : I -> K) l : (forall i, In i l -> f i = g i) -> sum f l = sum g l.
  Proof. apply bsum_ext. Qed.
  Lemma sum_sub {I} (k : K) (f g : I -> K) l : sum (fun i => f i - k * g i) l = sum f l - k * sum g l.
  Proof.
    induction l as [|i l IH]; [unfold bsum; cbn; ring|]; rewrite !sum_cons, IH; ring.
  Qed.
  Lemma sum_scale {I} (k : K) (f : I -> K) l : sum (fun i => k * f i) l = k * sum f l.
  Proof.
    induction l as [|i l IH]; [unfold bsum; cbn; ring|]; rewrite !sum_cons, IH; ring.
  Qed.
  Lemma sum_scale_r {I} (k : K) (f : I -> K) l : sum (fun i => f i * k) l = sum f l * k.
  Proof.
    induction l as [|i l IH]; [unfold bsum; cbn; ring|]; rewrite !sum_cons, IH; ring.
  Qed.
  Lemma sum_split (f : nat -> K) n i : (i < n)%nat ->
    sum f (seq 0 n) = sum f (seq 0 i) + f i + sum f (seq (i + 1) (n - (i + 1))).
  Proof.
    intros H; replace n with (i + (1 + (n - (i + 1))))%nat at 1 by lia.
    rewrite !seq_app, !sum_app; cbn [seq]; rewrite sum_cons.
    cbn [Nat.add]; change (sum f []) with (0 : K); ring.
  Qed.

  Definition dot (n : nat) (a : nat -> nat -> K) (k : nat) (v : nat -> K) : K := sum (fun j => a k j * v j) (seq 0 n).

  Lemma dot_ext n a a' k k' v v' : (forall j, (j < n)%nat -> a k j = a' k' j) -> (forall j, (j < n)%nat -> v j = v' j) -> dot n a k v = dot n a' k' v'.
  Proof. intros H H'; apply sum_ext; intros j Hj; apply in_seq in Hj; rewrite H, H' by lia; auto. Qed.

  Definition row_is (n : nat) (row : list K) (f : nat -> K) : Prop :=
    length row = n /\ forall j, (j < n)%nat -> nth_error row j = Some (f j).

  Definition SRepr (s : list (list K) * list K) (n : nat) (a : nat -> nat -> K) (b : nat -> K) : Prop :=
    length (fst s) = n /\ (forall k, (k < n)%nat -> exists row, nth_error (fst s) k = Some row /\ row_is n row (a k)) /\
    row_is n (snd s) b.

  Lemma row_set n row f k v : row_is n row f -> (k < n)%nat ->
    exists row', vset row k v = Ok row' /\ row_is n row' (fun j => if (j =? k)%nat then v else f j).
  Proof.
    intros [L H] Hk; rewrite vset_ok by lia; eexists; split; [reflexivity|]; split; [rewrite list_upd_length; auto|].
    intros j Hj; destruct (Nat.eqb_spec j k) as [->|N]; [apply list_upd_same; lia | rewrite list_upd_other; auto].
  Qed.

  Lemma row_get n row f k : row_is n row f -> (k < n)%nat -> vget row k = Ok (f k).
  Proof. intros [L H] Hk; apply vget_ok, H; auto. Qed.

  Lemma row_is_ext n row f g : row_is n row f -> (forall j, (j < n)%nat -> f j = g j) -> row_is n row g.
  Proof. intros [L H] E; split; auto; intros; rewrite H, E; auto. Qed.

  Lemma find_pivot_spec s n a b i : SRepr s n a b -> (i < n)%nat ->
    exists p mv, find_pivot K n (fst s) i = Ok (p, mv) /\ (i <= p < n)%nat /\ mv = fabs (a p i) /\
      forall k, (i <= k < n)%nat -> (mv <? fabs (a k i)) = false.
  Proof.
    intros (LA & HA & _) Hi; unfold find_pivot.
    destruct (HA i Hi) as (row & E & HR); rewrite (vget_ok _ _ _ E); cbn [bind]; rewrite (row_get _ _ _ _ HR Hi); cbn [bind].
    destruct (for_seq_inv (i + 1) (n - (i + 1))
      (fun m (pm : nat * K) => (i <= fst pm < n)%nat /\ snd pm = fabs (a (fst pm) i) /\
         forall k, (i <= k < m)%nat -> (snd pm <? fabs (a k i)) = false)
      (fun k mx => let* row := vget (fst s) k in let* v := vget row i in Ok (if snd mx <? fabs v then (k, fabs v) else mx))
      (i, fabs (a i i))) as ((p & mv) & -> & H1 & H2 & H3).
    - cbn [fst snd]; split; [lia|]; split; auto; intros k Hk; replace k with i by lia; apply f_irrefl.
    - intros k [p mv] Hk (P1 & P2 & P3); cbn [fst snd] in *.
      destruct (HA k) as (rk & Ek & HRk); [lia|]; rewrite (vget_ok _ _ _ Ek); cbn [bind]; rewrite (row_get _ _ _ _ HRk Hi); cbn [bind].
      eexists; split; [reflexivity|].
      destruct (mv <? fabs (a k i)) eqn:E1; cbn [fst snd].
      + split; [lia|]; split; auto; intros k' Hk'; destruct (Nat.eq_dec k' k) as [->|N]; [apply f_irrefl|].
        assert (P : (mv <? fabs (a k' i)) = false) by (apply P3; lia).
        apply f_le_trans with mv; auto; apply f_asym; auto.
      + split; auto; split; auto; intros k' Hk'; destruct (Nat.eq_dec k' k) as [->|N]; auto; apply P3; lia.
    - exists p, mv; cbn [fst snd] in *; split; auto; split; auto; split; auto; intros k Hk; apply H3; lia.
  Qed.

  Definition swp (i p r : nat) : nat := if (r =? i)%nat then p else if (r =? p)%nat then i else r.

  Lemma vswap_spec {B} (l : list B) i p : (i < length l)%nat -> (p < length l)%nat ->
    exists l', vswap l i p = Ok l' /\ length l' = length l /\ forall k, (k < length l)%nat -> nth_error l' k = nth_error l (swp i p k).
  Proof.
    intros Hi Hp; unfold vswap.
    destruct (vget_lt l i Hi) as (x & -> & Ex); destruct (vget_lt l p Hp) as (y & -> & Ey); cbn [bind].
    rewrite vset_ok by auto; cbn [bind]; rewrite vset_ok by (rewrite list_upd_length; auto).
    eexists; split; [reflexivity|]; split; [rewrite !list_upd_length; auto|].
    intros k Hk; unfold swp; destruct (Nat.eqb_spec k i) as [->|N].
    - destruct (Nat.eq_dec i p) as [->|N'].
      + rewrite list_upd_same by (rewrite list_upd_length; auto); congruence.
      + rewrite list_upd_other, list_upd_same by auto; auto.
    - destruct (Nat.eqb_spec k p) as [->|N'].
      + rewrite list_upd_same by (rewrite list_upd_length; auto); auto.
      + rewrite !list_upd_other by auto; auto.
  Qed.

  Lemma swap_spec s n a b i p : SRepr s n a b -> (i < n)%nat -> (p < n)%nat ->
    exists A' b', vswap (fst s) i p = Ok A' /\ vswap (snd s) i p = Ok b' /\
      SRepr (A', b') n (fun r => a (swp i p r)) (fun r => b (swp i p r)).
  Proof.
    intros (LA & HA & LB & HB) Hi Hp.
    destruct (vswap_spec (fst s) i p) as (A' & E1 & L1 & H1); [lia | lia |].
    destruct (vswap_spec (snd s) i p) as (b' & E2 & L2 & H2); [lia | lia |].
    assert (Hs : forall k, (k < n)%nat -> (swp i p k < n)%nat).
    { intros k Hk; unfold swp; destruct (k =? i)%nat; auto; destruct (k =? p)%nat; auto. }
    exists A', b'; split; auto; split; auto; split; [cbn [fst]; congruence|]; split; cbn [fst snd].
    - intros k Hk; rewrite H1 by lia; apply HA, Hs; auto.
    - split; [congruence|]; intros k Hk; rewrite H2 by lia; apply HB, Hs; auto.
  Qed.

  Lemma eliminate_row_spec s n a b i k : SRepr s n a b -> (i < n)%nat -> (k < n)%nat -> k <> i ->
    exists s', eliminate_row K n i k s = Ok s' /\
      SRepr s' n (fun r j => if (r =? k)%nat then (if (i <=? j)%nat then a k j - a k i / a i i * a i j else a k j) else a r j)
                 (fun r => if (r =? k)%nat then b k - a k i / a i i * b i else b r).
  Proof.
    intros (LA & HA & HB) Hi Hk N; destruct s as [A bb]; cbn [fst snd] in *; unfold eliminate_row.
    destruct (HA k Hk) as (rk & Ek & HRk); rewrite (vget_ok _ _ _ Ek); cbn [bind]; rewrite (row_get _ _ _ _ HRk Hi); cbn [bind].
    destruct (HA i Hi) as (ri & Ei & HRi); rewrite (vget_ok _ _ _ Ei); cbn [bind]; rewrite (row_get _ _ _ _ HRi Hi); cbn [bind].
    set (fac := a k i / a i i).
    destruct (for_seq_inv i (n - i) (fun m row => row_is n row (fun j => if (i <=? j)%nat && (j <? m)%nat then a k j - fac * a i j else a k j))
      (fun j rk => let* x := vget rk j in let* y := vget ri j in vset rk j (x - fac * y)) rk) as (rk' & -> & HRk').
    - eapply row_is_ext; [exact HRk|]; intros j Hj; destruct (Nat.leb_spec i j), (Nat.ltb_spec j i); cbn [andb]; auto; lia.
    - intros j row Hj HR; rewrite (row_get _ _ _ j HR) by lia; cbn [bind]; rewrite (row_get _ _ _ j HRi) by lia; cbn [bind].
      match goal with |- exists s', vset row j ?v = _ /\ _ => destruct (row_set n row _ j v HR) as (row' & E & HR'); [lia|] end.
      exists row'; split; auto; eapply row_is_ext; [exact HR'|]; intros j' Hj'; cbv beta.
      destruct (Nat.eqb_spec j' j) as [->|Nj].
      + destruct (Nat.leb_spec i j), (Nat.ltb_spec j j), (Nat.ltb_spec j (S j)); cbn [andb]; auto; lia.
      + destruct (Nat.leb_spec i j'), (Nat.ltb_spec j' j), (Nat.ltb_spec j' (S j)); cbn [andb]; auto; lia.
    - cbn [bind]; rewrite vset_ok by lia; cbn [bind]; rewrite (row_get _ _ _ _ HB Hk), (row_get _ _ _ _ HB Hi); cbn [bind].
      destruct (row_set n bb b k (b k - fac * b i) HB Hk) as (b' & -> & HB'); cbn [bind].
      eexists; split; [reflexivity|]; split; [cbn [fst]; rewrite list_upd_length; auto|]; split; cbn [fst snd].
      + intros r Hr; destruct (Nat.eqb_spec r k) as [->|Nr].
        * exists rk'; split; [apply list_upd_same; lia|]; eapply row_is_ext; [exact HRk'|]; intros j Hj; cbv beta.
          destruct (Nat.leb_spec i j), (Nat.ltb_spec j (i + (n - i))); cbn [andb]; auto; lia.
        * destruct (HA r Hr) as (row & E & HR); exists row; split; auto; rewrite list_upd_other; auto.
      + eapply row_is_ext; [exact HB'|]; intros j Hj; cbv beta; destruct (Nat.eqb_spec j k) as [->|]; auto.
  Qed.

  Lemma SRepr_ext s n a b a' b' : SRepr s n a b -> (forall k j, (k < n)%nat -> (j < n)%nat -> a k j = a' k j) ->
    (forall k, (k < n)%nat -> b k = b' k) -> SRepr s n a' b'.
  Proof.
    intros (L & HA & HB) E1 E2; split; auto; split; [|eapply row_is_ext; eauto].
    intros k Hk; destruct (HA k Hk) as (row & E & HR); exists row; split; auto; eapply row_is_ext; eauto.
  Qed.

  Lemma eliminate_spec s n a b i : SRepr s n a b -> (i < n)%nat ->
    exists s', for_list (seq (i + 1) (n - (i + 1))) (eliminate_row K n i) s = Ok s' /\
      SRepr s' n (fun r j => if (i <? r)%nat then (if (i <=? j)%nat then a r j - a r i / a i i * a i j else a r j) else a r j)
                 (fun r => if (i <? r)%nat then b r - a r i / a i i * b i else b r).
  Proof.
    intros HS Hi.
    destruct (for_seq_inv (i + 1) (n - (i + 1))
      (fun m s => SRepr s n (fun r j => if (i <? r)%nat && (r <? m)%nat then (if (i <=? j)%nat then a r j - a r i / a i i * a i j else a r j) else a r j)
                 (fun r => if (i <? r)%nat && (r <? m)%nat then b r - a r i / a i i * b i else b r)) (eliminate_row K n i) s) as (s' & E & H).
    - eapply SRepr_ext; [exact HS| |]; intros; destruct (Nat.ltb_spec i k), (Nat.ltb_spec k (i + 1)); cbn [andb]; auto; lia.
    - intros k s1 Hk H1; destruct (eliminate_row_spec s1 n _ _ i k H1) as (s2 & E2 & H2); [lia | lia | lia|].
      exists s2; split; auto; eapply SRepr_ext; [exact H2| |]; cbv beta; intros r.
      + intros j Hr Hj; rewrite (Nat.ltb_irrefl i), (Nat.ltb_irrefl k), andb_false_r; cbn [andb].
        destruct (Nat.eqb_spec r k) as [->|Nr].
        * destruct (Nat.ltb_spec i k), (Nat.ltb_spec k (S k)); cbn [andb]; auto; lia.
        * destruct (Nat.ltb_spec i r), (Nat.ltb_spec r k), (Nat.ltb_spec r (S k)); cbn [andb]; auto; lia.
      + intros Hr; rewrite (Nat.ltb_irrefl i), (Nat.ltb_irrefl k), andb_false_r; cbn [andb].
        destruct (Nat.eqb_spec r k) as [->|Nr].
        * destruct (Nat.ltb_spec i k), (Nat.ltb_spec k (S k)); cbn [andb]; auto; lia.
        * destruct (Nat.ltb_spec i r), (Nat.ltb_spec r k), (Nat.ltb_spec r (S k)); cbn [andb]; auto; lia.
    - exists s'; split; auto; eapply SRepr_ext; [exact H| |]; cbv beta; intros r.
      + intros j Hr Hj; destruct (Nat.ltb_spec i r), (Nat.ltb_spec r (i + 1 + (n - (i + 1)))); cbn [andb]; auto; lia.
      + intros Hr; destruct (Nat.ltb_spec i r), (Nat.ltb_spec r (i + 1 + (n - (i + 1)))); cbn [andb]; auto; lia.
  Qed.

  (** ** the elimination invariant *)
  Section Invariant.
    Variables (n : nat) (a0 : nat -> nat -> K) (b0 : nat -> K) (thr : K).

    Record elim_inv (i : nat) (a : nat -> nat -> K) (b : nat -> K) : Prop := {
      inv_tri : forall j k, (j < i)%nat -> (j < k < n)%nat -> a k j = 0;
      inv_diag : forall j, (j < i)%nat -> a j j <> 0;
      inv_sol : forall v, (forall k, (k < n)%nat -> dot n a k v = b k) -> forall k, (k < n)%nat -> dot n a0 k v = b0 k;
      inv_res : forall v, (forall k, (k < i)%nat -> dot n a k v = 0) ->
                forall k, (k < n)%nat -> exists k', (k' < n)%nat /\ dot n a0 k v = dot n a k' v
    }.

    Lemma inv_start : elim_inv 0 a0 b0.
    Proof. split; try (intros; lia); auto; intros v _ k Hk; exists k; auto. Qed.

    Lemma inv_swap i p a b : (i < n)%nat -> (i <= p < n)%nat -> elim_inv i a b ->
      elim_inv i (fun r => a (swp i p r)) (fun r => b (swp i p r)).
    Proof.
      intros Hi Hp [T D S Rs].
      assert (Hs : forall k, (k < n)%nat -> (swp i p k < n)%nat /\ ((i <= k)%nat -> (i <= swp i p k)%nat) /\ ((k < i)%nat -> swp i p k = k) /\ swp i p (swp i p k) = k).
      { intros k Hk; unfold swp; destruct (Nat.eqb_spec k i), (Nat.eqb_spec k p); repeat split; try lia;
          destruct (Nat.eqb_spec p i), (Nat.eqb_spec p p), (Nat.eqb_spec i i), (Nat.eqb_spec i p), (Nat.eqb_spec k i), (Nat.eqb_spec k p); lia. }
      split.
      - intros j k Hj Hk; destruct (Hs k) as (H1 & H2 & H3 & _); [lia|]; apply T; auto; split; auto.
        destruct (Nat.lt_ge_cases k i); [rewrite H3; lia | specialize (H2 H); lia].
      - intros j Hj; destruct (Hs j) as (_ & _ & H3 & _); [lia|]; rewrite H3 by auto; apply D; auto.
      - intros v H k Hk; apply S; auto; intros k' Hk'; destruct (Hs k' Hk') as (H1 & _ & _ & H4).
        specialize (H _ H1); rewrite H4 in H; rewrite <- H; apply dot_ext; auto; intros; rewrite H4; auto.
      - intros v H k Hk; destruct (Rs v) with (k := k) as (k' & Hk' & E); auto.
        + intros k' Hk'; destruct (Hs k') as (_ & _ & H3 & _); [lia|]; specialize (H k' Hk').
          rewrite <- H; apply dot_ext; auto; intros; rewrite H3; auto.
        + destruct (Hs k' Hk') as (H1 & _ & _ & H4); exists (swp i p k'); split; auto; rewrite E; apply dot_ext; auto; intros; rewrite H4; auto.
    Qed.

    Lemma inv_elim i a b : (i < n)%nat -> a i i <> 0 -> elim_inv i a b ->
      elim_inv (S i) (fun r j => if (i <? r)%nat then (if (i <=? j)%nat then a r j - a r i / a i i * a i j else a r j) else a r j)
                     (fun r => if (i <? r)%nat then b r - a r i / a i i * b i else b r).
    Proof.
      intros Hi Np [T D S Rs].
      set (a' := fun r j => if (i <? r)%nat then (if (i <=? j)%nat then a r j - a r i / a i i * a i j else a r j) else a r j).
      assert (E' : forall r j, (i < r)%nat -> (r < n)%nat -> (j < n)%nat -> a' r j = a r j - a r i / a i i * a i j).
      { intros r j Hr Hrn Hj; unfold a'; destruct (Nat.ltb_spec i r); [|lia]; destruct (Nat.leb_spec i j); auto.
        rewrite (T j i) by lia; ring. }
      assert (E0 : forall r j, (r <= i)%nat -> a' r j = a r j).
      { intros r j Hr; unfold a'; destruct (Nat.ltb_spec i r); auto; lia. }
      assert (D0 : forall r v, (r <= i)%nat -> dot n a' r v = dot n a r v).
      { intros r v Hr; apply dot_ext; auto. }
      assert (D1 : forall r v, (i < r)%nat -> (r < n)%nat -> dot n a' r v = dot n a r v - a r i / a i i * dot n a i v).
      { intros r v Hr Hrn; unfold dot; rewrite <- sum_sub; apply sum_ext; intros j Hj; apply in_seq in Hj; rewrite E' by lia; ring. }
      split.
      - intros j k Hj Hk; destruct (Nat.le_gt_cases k i) as [Hki|Hki].
        + rewrite E0 by auto; apply T; lia.
        + rewrite E' by lia; destruct (Nat.eq_dec j i) as [->|N]; [field; auto | rewrite !(T j) by lia; ring].
      - intros j Hj; rewrite E0 by lia; destruct (Nat.eq_dec j i) as [->|N]; auto; apply D; lia.
      - intros v H; apply S; intros k Hk; pose proof (H i Hi) as Hii; rewrite D0 in Hii by auto.
        rewrite Nat.ltb_irrefl in Hii; specialize (H k Hk).
        destruct (Nat.ltb_spec i k) as [Hki|Hki].
        + rewrite D1, Hii in H by auto.
          replace (dot n a k v) with (dot n a k v - a k i / a i i * b i + a k i / a i i * b i) by ring; rewrite H; ring.
        + rewrite D0 in H by auto; auto.
      - intros v H k Hk; assert (Hii : dot n a i v = 0) by (rewrite <- D0 by auto; apply H; lia).
        destruct (Rs v) with (k := k) as (k' & Hk' & E); auto.
        + intros k' Hk'; rewrite <- D0 by lia; apply H; lia.
        + exists k'; split; auto; rewrite E; destruct (Nat.le_gt_cases k' i) as [Hki|Hki]; [rewrite D0; auto|].
          rewrite D1, Hii by auto; ring.
    Qed.

    (** the rows above i can be annihilated by a vector that is 1 at i and 0 after i *)
    Lemma kernel i a b : (i < n)%nat -> elim_inv i a b ->
      exists v, v i = 1 /\ (forall j, (i < j)%nat -> v j = 0) /\ forall k, (k < i)%nat -> dot n a k v = 0.
    Proof.
      intros Hi [T D _ _].
      assert (G : forall m, (m <= i)%nat -> exists v, v i = 1 /\ (forall j, (i < j)%nat -> v j = 0) /\
                   (forall k, (i - m <= k < i)%nat -> dot n a k v = 0)).
      { induction m as [|m IH]; intros Hm.
        - exists (fun j => if (j =? i)%nat then 1 else 0); rewrite Nat.eqb_refl; split; auto; split; [|intros; lia].
          intros j Hj; destruct (Nat.eqb_spec j i); auto; lia.
        - destruct IH as (v & V1 & V2 & V3); [lia|]; set (r := (i - S m)%nat).
          set (rest := dot n a r (fun j => if (j =? r)%nat then 0 else v j)).
          exists (fun j => if (j =? r)%nat then - rest / a r r else v j); split; [|split].
          + destruct (Nat.eqb_spec i r); auto; unfold r in *; lia.
          + intros j Hj; destruct (Nat.eqb_spec j r); [unfold r in *; lia|]; auto.
          + intros k Hk; destruct (Nat.eq_dec k r) as [->|Nk].
            * assert (Dr : a r r <> 0) by (apply D; unfold r; lia).
              unfold rest, dot; rewrite !(sum_split _ n r) by (unfold r; lia); rewrite Nat.eqb_refl.
              rewrite (sum_ext (fun j => a r j * (if (j =? r)%nat then - (sum (fun j0 : nat => a r j0 * (if (j0 =? r)%nat then 0 else v j0)) (seq 0 r) + a r r * 0 +
                 sum (fun j0 : nat => a r j0 * (if (j0 =? r)%nat then 0 else v j0)) (seq (r + 1) (n - (r + 1)))) / a r r else v j))
                 (fun j0 : nat => a r j0 * (if (j0 =? r)%nat then 0 else v j0)) (seq 0 r)).
              2:{ intros j Hj; apply in_seq in Hj; destruct (Nat.eqb_spec j r); auto; lia. }
              rewrite (sum_ext (fun j => a r j * (if (j =? r)%nat then - (sum (fun j0 : nat => a r j0 * (if (j0 =? r)%nat then 0 else v j0)) (seq 0 r) + a r r * 0 +
                 sum (fun j0 : nat => a r j0 * (if (j0 =? r)%nat then 0 else v j0)) (seq (r + 1) (n - (r + 1)))) / a r r else v j))
                 (fun j0 : nat => a r j0 * (if (j0 =? r)%nat then 0 else v j0)) (seq (r + 1) (n - (r + 1)))).
              2:{ intros j Hj; apply in_seq in Hj; destruct (Nat.eqb_spec j r); auto; lia. }
              field; auto.
            * rewrite <- (V3 k) by (unfold r in *; lia); apply sum_ext; intros j Hj; destruct (Nat.eqb_spec j r) as [->|]; auto.
              rewrite (T r k) by (unfold r in *; lia); ring. }
      destruct (G i (Nat.le_refl i)) as (v & V1 & V2 & V3); exists v; split; auto; split; auto; intros k Hk; apply V3; lia.
    Qed.

    (** a column that vanishes below the threshold exposes an almost singular matrix *)
    Lemma near_singular i a b mv : (i < n)%nat -> (0 <? thr) = true -> elim_inv i a b ->
      (forall k, (i <= k < n)%nat -> (mv <? fabs (a k i)) = false) -> (mv <? thr) = true ->
      exists v, (exists j, (j < n)%nat /\ v j = 1) /\ forall k, (k < n)%nat -> (fabs (dot n a0 k v) <? thr) = true.
    Proof.
      intros Hi Ht I Hm Hmt; destruct (kernel i a b Hi I) as (v & V1 & V2 & V3); exists v; split; [exists i; auto|].
      intros k Hk; destruct (inv_res _ _ _ I v V3 k Hk) as (k' & Hk' & ->).
      destruct (Nat.lt_ge_cases k' i) as [Hki|Hki]; [rewrite V3, fabs_0; auto|].
      assert (E : dot n a k' v = a k' i).
      { unfold dot; rewrite (sum_split _ n i) by auto; rewrite !sum_zero, V1; [ring| |].
        - intros j Hj; apply in_seq in Hj; rewrite V2 by lia; ring.
        - intros j Hj; apply in_seq in Hj; rewrite (inv_tri _ _ _ I j k') by lia; ring. }
      rewrite E; eapply f_le_lt; [apply Hm; lia | auto].
    Qed.

    Lemma forward_spec s : SRepr s n a0 b0 -> (0 <? thr) = true ->
      exists o, forward K thr n s = Ok o /\
        match o with
        | None => exists v, (exists j, (j < n)%nat /\ v j = 1) /\ forall k, (k < n)%nat -> (fabs (dot n a0 k v) <? thr) = true
        | Some s' => exists a b, SRepr s' n a b /\ elim_inv n a b
        end.
    Proof.
      intros HS Ht; unfold forward.
      set (P := fun i (o : option (list (list K) * list K)) => match o with
        | None => exists v, (exists j, (j < n)%nat /\ v j = 1) /\ forall k, (k < n)%nat -> (fabs (dot n a0 k v) <? thr) = true
        | Some s' => exists a b, SRepr s' n a b /\ elim_inv i a b end).
      match goal with |- exists o, for_range n ?body _ = Ok o /\ _ => destruct (for_range_inv n P body (Some s)) as (o & E & H) end.
      - exists a0, b0; split; auto; apply inv_start.
      - intros i [[A b]|] Hi H; [|exists None; auto]; destruct H as (a & b' & H & I).
        destruct (find_pivot_spec (A, b) n a b' i H Hi) as (p & mv & Ep & Hp & Em & Hm); cbn [fst] in Ep; rewrite Ep; cbn [bind].
        destruct (mv <? thr) eqn:Et.
        { exists None; split; auto; eapply near_singular; eauto. }
        assert (Np : a p i <> 0).
        { intros E0; rewrite Em, E0, fabs_0 in Et; congruence. }
        assert (SW : exists s1, (if (p =? i)%nat then Ok (A, b) else let* A := vswap A i p in let* b := vswap b i p in Ok (A, b)) = Ok s1 /\
                     SRepr s1 n (fun r => a (swp i p r)) (fun r => b' (swp i p r))).
        { destruct (Nat.eqb_spec p i) as [->|N].
          - exists (A, b); split; auto; eapply SRepr_ext; [exact H| |]; intros; unfold swp; destruct (Nat.eqb_spec k i) as [->|]; auto.
          - destruct (swap_spec (A, b) n a b' i p H Hi) as (A' & b1 & E1 & E2 & H'); [lia|]; cbn [fst snd] in *; rewrite E1; cbn [bind]; rewrite E2; cbn [bind].
            exists (A', b1); auto. }
        destruct SW as (s1 & -> & H1); cbn [bind].
        destruct (eliminate_spec s1 n _ _ i H1 Hi) as (s2 & -> & H2); cbn [bind].
        exists (Some s2); split; auto; cbn [P]; eexists; eexists; split; [exact H2|].
        apply (inv_elim i (fun r => a (swp i p r)) (fun r => b' (swp i p r))); auto.
        + unfold swp; rewrite Nat.eqb_refl; auto.
        + apply inv_swap; auto.
      - exists o; split; auto.
    Qed.

    Lemma back_spec A bb a b : SRepr (A, bb) n a b -> elim_inv n a b ->
      exists x, back K n A bb = Ok x /\ length x = n /\ forall k, (k < n)%nat -> dot n a k (fun j => nth j x 0) = b k.
    Proof.
      intros (LA & HA & HB) [T D _ _]; cbn [fst snd] in *; unfold back.
      set (P := fun m (x : list K) => length x = n /\ forall k, (m <= k < n)%nat -> dot n a k (fun j => nth j x 0) = b k).
      match goal with |- exists x, for_list _ ?body _ = _ /\ _ => destruct (for_rev_inv n P body (repeat 0 n)) as (x & E & L & H) end.
      - split; [apply repeat_length | intros; lia].
      - intros i x Hi [L H]; destruct (HA i Hi) as (row & Er & HR); rewrite (vget_ok _ _ _ Er); cbn [bind].
        assert (ES : for_list (seq (i + 1) (n - (i + 1))) (fun j s => let* a := vget row j in let* v := vget x j in Ok (s + a * v)) 0 =
                     Ok (sum (fun j => a i j * nth j x 0) (seq (i + 1) (n - (i + 1))))).
        { unfold bsum.
          destruct (for_list_fold (fun _ => True) (fun j s => s + a i j * nth j x 0) (seq (i + 1) (n - (i + 1)))
            (fun j s => let* a := vget row j in let* v := vget x j in Ok (s + a * v)) 0) as [E _]; auto.
          intros j s Hj _; apply in_seq in Hj; rewrite (row_get _ _ _ j HR) by lia; cbn [bind].
          rewrite (vget_ok x j (nth j x 0)) by (apply nth_error_nth'; lia); auto. }
        rewrite ES; cbn [bind]; rewrite (row_get _ _ _ _ HB Hi); cbn [bind]; rewrite (row_get _ _ _ _ HR Hi); cbn [bind].
        rewrite vset_ok by lia; eexists; split; [reflexivity|]; split; [rewrite list_upd_length; auto|].
        set (xi := (b i - sum (fun j => a i j * nth j x 0) (seq (i + 1) (n - (i + 1)))) / a i i).
        assert (NX : forall j, nth j (list_upd i xi x) 0 = if (j =? i)%nat then xi else nth j x 0).
        { intros j; destruct (Nat.eqb_spec j i) as [->|N].
          - apply nth_error_nth, list_upd_same; lia.
          - destruct (Nat.lt_ge_cases j n) as [Hj|Hj].
            + apply nth_error_nth; rewrite list_upd_other by auto; apply nth_error_nth'; lia.
            + rewrite !nth_overflow; auto; rewrite ?list_upd_length; lia. }
        intros k Hk; destruct (Nat.eq_dec k i) as [->|N].
        + unfold dot; rewrite (sum_split _ n i) by auto; rewrite sum_zero, NX, Nat.eqb_refl.
          2:{ intros j Hj; apply in_seq in Hj; rewrite (T j i) by lia; ring. }
          rewrite (sum_ext _ (fun j => a i j * nth j x 0)).
          2:{ intros j Hj; apply in_seq in Hj; rewrite NX; destruct (Nat.eqb_spec j i); auto; lia. }
          unfold xi; field; apply D; auto.
        + rewrite <- (H k) by lia; apply sum_ext; intros j Hj; rewrite NX; destruct (Nat.eqb_spec j i) as [->|]; auto.
          rewrite (T i k) by lia; ring.
      - exists x; split; auto; split; auto; intros k Hk; apply H; lia.
    Qed.
  End Invariant.

  Lemma solve_spec thr n A b a0 b0 : SRepr (A, b) n a0 b0 -> (0 <? thr) = true ->
    exists x, solve_linear_system K thr n A b = Ok x /\ length x = n /\
      ((forall k, (k < n)%nat -> dot n a0 k (fun j => nth j x 0) = b0 k) \/
       (x = repeat 0 n /\ exists v, (exists j, (j < n)%nat /\ v j = 1) /\ forall k, (k < n)%nat -> (fabs (dot n a0 k v) <? thr) = true)).
  Proof.
    intros HS Ht; unfold solve_linear_system; destruct (forward_spec n a0 b0 thr (A, b) HS Ht) as (o & -> & H); cbn [bind].
    destruct o as [[A' b']|].
    - destruct H as (a & bf & H & I); destruct (back_spec n a0 b0 A' b' a bf H I) as (x & E & L & Hx).
      exists x; split; auto; split; auto; left; intros k Hk; eapply inv_sol; eauto.
    - exists (repeat 0 n); split; auto; split; [apply repeat_length|]; right; auto.
  Qed.
End Solve.
