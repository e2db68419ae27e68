(** HistProofs.v - lemmas on histograms. *)
From Coq Require Import ZifyBool ZifyNat QArith Qround Qfield Sorted Lqa.
From Verif Require Import Base ImageModel ImageFacts HistModel.
Open Scope nat_scope.
Ltac Zify.zify_post_hook ::= Z.div_mod_to_equations.

(** ** std::reduce *)
Lemma reduces_perm_sum l r : reduces uadd l r -> Forall fits l -> Z.of_nat r = w64 (Z.of_nat (list_sum l)).
Proof.
  induction 1 as [a|l l1 l2 a b P R1 IH1 R2 IH2]; intros F.
  - apply Forall_inv in F; unfold fits, w64, list_sum in *; simpl.
    rewrite Z.mod_small by lia; lia.
  - assert (F' : Forall fits (l1 ++ l2)) by (rewrite <- P; auto).
    apply Forall_app in F' as [F1 F2]; specialize (IH1 F1); specialize (IH2 F2).
    assert (S : list_sum l = list_sum l1 + list_sum l2).
    { rewrite <- list_sum_app; clear - P; induction P; simpl; lia. }
    rewrite S; unfold uadd, wn; rewrite IH1, IH2; unfold w64.
    rewrite <- Zplus_mod, Z2Nat.id by (apply Z.mod_pos_bound; unfold two64; lia).
    f_equal; lia.
Qed.

Lemma reduces_exists {A} (op : A -> A -> A) l : l <> [] -> exists r, reduces op l r.
Proof.
  induction l as [|a [|b l] IH]; intros H; [congruence|exists a; constructor|].
  destruct IH as [r Hr]; [discriminate|].
  exists (op a r); apply (red_split op (a :: b :: l) [a] (b :: l)); auto; constructor.
Qed.

Lemma list_sum_ge l : Forall (fun x => x <= list_sum l) l.
Proof.
  induction l as [|a l IH]; constructor; simpl; [lia|].
  eapply Forall_impl; [|exact IH]; simpl; intros; lia.
Qed.

Lemma reduces_total l t : fits (list_sum l) -> reduces uadd l t -> t = list_sum l.
Proof.
  intros F R; apply reduces_perm_sum in R.
  - unfold w64, fits in *; rewrite Z.mod_small in R by lia; lia.
  - eapply Forall_impl; [|apply list_sum_ge]; unfold fits in *; simpl; intros; lia.
Qed.

(** ** dense histograms *)
Notation occ := (count_occ Nat.eq_dec).

Lemma list_upd_sum l : forall k v c, nth_error l k = Some c -> list_sum (list_upd k v l) + c = list_sum l + v.
Proof.
  induction l as [|a l IH]; intros [|k] v c H; simpl in *; try discriminate.
  - injection H as ->; lia.
  - specialize (IH k v c H); lia.
Qed.

Lemma uadd_1 c : fits (c + 1) -> uadd c 1 = S c.
Proof. intros H; rewrite uadd_fits; auto; lia. Qed.

Lemma hd_adds l : forall h, fits (list_sum h + length l) -> Forall (fun v => v < length h) l ->
  exists h', for_list l hd_add h = Ok h' /\ length h' = length h /\ list_sum h' = list_sum h + length l /\
    forall v c, nth_error h v = Some c -> nth_error h' v = Some (c + occ l v).
Proof.
  induction l as [|a l IH]; intros h F L.
  - exists h; simpl; repeat split; auto; intros; rewrite Nat.add_0_r; auto.
  - inversion L as [|? ? La Ll]; subst; simpl in F.
    destruct (vget_lt h a La) as (c & E1 & E2).
    assert (Hc : c <= list_sum h).
    { pose proof (list_sum_ge h) as G; rewrite Forall_forall in G; apply G; eapply nth_error_In; eauto. }
    cbn [for_list]; unfold hd_add at 1; rewrite E1; cbn [bind].
    rewrite vset_ok by auto; cbn [bind].
    rewrite uadd_1 by (unfold fits in *; lia).
    pose proof (list_upd_sum h a (S c) c E2) as Hs.
    destruct (IH (list_upd a (S c) h)) as (h' & E & Lh & Sh & Hh).
    + unfold fits in *; lia.
    + rewrite list_upd_length; auto.
    + exists h'; split; auto; rewrite list_upd_length in Lh; split; auto; split; [simpl; lia|].
      intros v c' Hv; simpl.
      destruct (Nat.eq_dec a v) as [Ev|Nv].
      * subst v; rewrite E2 in Hv; injection Hv as <-.
        rewrite (Hh a (S c)) by (apply list_upd_same; auto); f_equal; lia.
      * apply Hh; rewrite list_upd_other by auto; auto.
Qed.

Lemma list_sum_repeat0 n : list_sum (repeat 0 n) = 0.
Proof. induction n; simpl; auto. Qed.

Lemma hd_image_spec R im : fits (length (pix im)) -> Forall (fun v => v < R) (pix im) ->
  exists h, hd_image R im = Ok h /\ length h = R /\ list_sum h = length (pix im) /\
    forall v, v < R -> nth_error h v = Some (occ (pix im) v).
Proof.
  intros F L; unfold hd_image, hd_empty.
  destruct (hd_adds (pix im) (repeat 0 R)) as (h & E & Lh & Sh & Hh).
  - rewrite list_sum_repeat0; auto.
  - rewrite repeat_length; auto.
  - exists h; rewrite repeat_length in Lh; rewrite list_sum_repeat0 in Sh; repeat split; auto.
    intros v Hv; apply (Hh v 0), nth_error_repeat_some; auto.
Qed.

(** ** sparse histograms *)
Section SparseProofs.
  Context {K : Type} (ltb : K -> K -> bool) (eq_dec : forall a b : K, {a = b} + {a <> b}).
  Hypothesis irrefl : forall a, ltb a a = false.
  Hypothesis trans : forall a b c, ltb a b = true -> ltb b c = true -> ltb a c = true.
  Hypothesis total : forall a b, ltb a b = false -> ltb b a = false -> a = b.

  Notation below k m := (Forall (fun e => ltb k (fst e) = true) m).

  Fixpoint sorted {V} (m : list (K * V)) : Prop :=
    match m with
    | [] => True
    | e :: m' => below (fst e) m' /\ sorted m'
    end.

  Lemma below_find {V} k (m : list (K * V)) : below k m -> map_find ltb k m = None.
  Proof. destruct m as [|[k' v] m]; simpl; auto; intros H; apply Forall_inv in H; simpl in H; rewrite H; auto. Qed.

  Lemma below_trans {V} a k (m : list (K * V)) : ltb a k = true -> below k m -> below a m.
  Proof. intros H; apply Forall_impl; intros e He; eauto. Qed.

  Lemma asym a b : ltb a b = true -> ltb b a = false.
  Proof. intros H; destruct (ltb b a) eqn:E; auto; rewrite <- (irrefl a); symmetry; eauto. Qed.

  Lemma find_upd {V} (d : V) f k m : sorted m ->
    (forall j, map_find ltb j (map_upd ltb d f k m) =
       if eq_dec j k then Some (f (match map_find ltb k m with Some v => v | None => d end))
       else map_find ltb j m) /\
    sorted (map_upd ltb d f k m) /\
    (forall a, ltb a k = true -> below a m -> below a (map_upd ltb d f k m)).
  Proof.
    induction m as [|[k' v] m IH]; intros S.
    - simpl; repeat split; auto.
      intros j; destruct (eq_dec j k) as [->|N]; [rewrite irrefl; auto|].
      destruct (ltb j k) eqn:E1; auto; destruct (ltb k j) eqn:E2; auto; exfalso; auto.
    - destruct S as [B S]; simpl in B; specialize (IH S) as (F & Sm & Bm).
      cbn [map_upd map_find].
      destruct (ltb k k') eqn:E1; [|destruct (ltb k' k) eqn:E2].
      + split; [|split].
        * intros j; cbn [map_find]; destruct (eq_dec j k) as [->|N].
          { rewrite irrefl; auto. }
          { destruct (ltb j k) eqn:E3.
            - rewrite (trans j k k'); auto.
            - destruct (ltb k j) eqn:E4; auto; exfalso; auto. }
        * simpl; split; auto; constructor; simpl; auto; eapply below_trans; eauto.
        * intros a Ha Hb; constructor; auto.
      + split; [|split].
        * intros j; cbn [map_find]; rewrite F; destruct (eq_dec j k) as [->|N].
          { rewrite E1, E2; auto. }
          { auto. }
        * simpl; split; auto.
        * intros a Ha Hb; inversion Hb; subst; constructor; auto.
      + assert (k = k') by auto; subst k'.
        split; [|split].
        * intros j; cbn [map_find]; destruct (eq_dec j k) as [->|N].
          { rewrite irrefl; auto. }
          { destruct (ltb j k) eqn:E3; auto; destruct (ltb k j) eqn:E4; auto; exfalso; auto. }
        * simpl; auto.
        * intros a Ha Hb; inversion Hb; subst; constructor; auto.
  Qed.

  Lemma find_head {V} k (v : V) m : sorted ((k, v) :: m) -> map_find ltb k ((k, v) :: m) = Some v.
  Proof. intros _; simpl; rewrite irrefl; auto. Qed.

  (** a map is determined by its lookups *)
  Lemma sorted_map_ext {V} (m1 m2 : list (K * V)) :
    sorted m1 -> sorted m2 -> (forall k, map_find ltb k m1 = map_find ltb k m2) -> m1 = m2.
  Proof.
    revert m2; induction m1 as [|[k1 v1] m1 IH]; intros [|[k2 v2] m2] S1 S2 H; auto.
    - specialize (H k2); rewrite find_head in H by auto; discriminate.
    - specialize (H k1); rewrite find_head in H by auto; discriminate.
    - destruct (eq_dec k1 k2) as [Ek|Nk].
      + subst k2; pose proof (H k1) as Hk; rewrite !find_head in Hk by auto; injection Hk as ->.
        f_equal; apply IH; [apply S1|apply S2|].
        intros k; specialize (H k); simpl in H; destruct S1 as [B1 _], S2 as [B2 _]; simpl in *.
        destruct (ltb k k1) eqn:E.
        * rewrite !below_find; auto; eapply below_trans; eauto.
        * destruct (ltb k1 k) eqn:E2; auto.
          assert (k = k1) by auto; subst k; rewrite !below_find; auto.
      + pose proof (H k1) as Ha; pose proof (H k2) as Hb; rewrite find_head in Ha, Hb by auto; simpl in Ha, Hb.
        destruct (ltb k1 k2) eqn:E1; [discriminate|].
        destruct (ltb k2 k1) eqn:E2; [discriminate|].
        exfalso; auto.
  Qed.

  Notation occk := (count_occ eq_dec).

  Lemma hs_adds l : forall m, sorted m -> (forall k, fits (hs_count ltb m k + length l)) ->
    sorted (fold_left (hs_add ltb) l m) /\
    forall k, map_find ltb k (fold_left (hs_add ltb) l m) =
      match map_find ltb k m, occk l k with
      | None, 0 => None
      | Some c, n => Some (c + n)
      | None, n => Some n
      end.
  Proof.
    induction l as [|a l IH]; intros m S F; simpl.
    - split; auto; intros k; destruct (map_find ltb k m); auto.
    - destruct (find_upd 0 (fun c => uadd c 1) a m S) as (Fu & Su & _).
      fold (hs_add ltb m a) in Fu, Su.
      assert (Fa : uadd (hs_count ltb m a) 1 = Datatypes.S (hs_count ltb m a)).
      { apply uadd_1; specialize (F a); unfold fits in *; simpl in F; lia. }
      destruct (IH (hs_add ltb m a)) as (S' & F'); auto.
      + intros k; specialize (F k); unfold hs_count in F, Fa |- *; rewrite Fu.
        destruct (eq_dec k a) as [->|N]; [rewrite Fa|]; unfold fits in *; simpl in F; lia.
      + split; auto; intros k; rewrite F', Fu; unfold hs_count in Fa.
        destruct (eq_dec k a) as [Ek|N].
        * subst k; destruct (eq_dec a a) as [_|]; [|congruence]; rewrite Fa.
          destruct (map_find ltb a m) as [c|]; [f_equal; lia|].
          destruct (occk l a); auto.
        * destruct (eq_dec a k) as [->|_]; [congruence|]; auto.
  Qed.

  Lemma hs_image_spec im : fits (length (pix im)) ->
    sorted (hs_image ltb im) /\
    forall k, map_find ltb k (hs_image ltb im) =
      match occk (pix im) k with 0 => None | n => Some n end.
  Proof. intros F; apply (hs_adds (pix im) []); simpl; auto. Qed.

  (** keys of a sorted map *)
  Lemma in_find {V} k (v : V) m : sorted m -> In (k, v) m -> map_find ltb k m = Some v.
  Proof.
    induction m as [|[k' v'] m IH]; intros S H; [inversion H|].
    destruct S as [B S]; simpl in B; cbn [map_find]; destruct H as [E|H].
    - injection E as -> ->; rewrite irrefl; auto.
    - rewrite Forall_forall in B; specialize (B _ H) as Bk; simpl in Bk; rewrite Bk, (asym _ _ Bk); auto.
  Qed.
  Lemma find_in {V} k (v : V) m : map_find ltb k m = Some v -> In (k, v) m.
  Proof.
    induction m as [|[k' v'] m IH]; simpl; [discriminate|].
    destruct (ltb k k') eqn:E1; [discriminate|]; destruct (ltb k' k) eqn:E2; auto.
    intros [= ->]; left; f_equal; symmetry; auto.
  Qed.
  Lemma NoDup_keys {V} (m : list (K * V)) : sorted m -> NoDup (map fst m).
  Proof.
    induction m as [|[k v] m IH]; intros S; simpl; [constructor|]; destruct S as [B S]; constructor; auto.
    intros H; apply in_map_iff in H as ([k' v'] & E & H); simpl in E; subst k'.
    rewrite Forall_forall in B; specialize (B _ H); simpl in B; rewrite irrefl in B; discriminate.
  Qed.

  (** the counts of a stream add up to its length *)
  Lemma occ_sum (ks : list K) : NoDup ks -> forall l, (forall a, In a l -> In a ks) ->
    list_sum (map (occk l) ks) = length l.
  Proof.
    intros ND; induction l as [|a l IH]; intros H.
    - simpl; clear; induction ks; simpl; auto.
    - assert (Ha : In a ks) by (apply H; simpl; auto).
      assert (E : list_sum (map (occk (a :: l)) ks) = S (list_sum (map (occk l) ks))).
      2:{ rewrite E, IH; auto; intros; apply H; simpl; auto. }
      clear IH H; simpl.
      induction ks as [|b ks IH]; [inversion Ha|].
      apply NoDup_cons_iff in ND as [NI ND']; simpl.
      destruct (eq_dec a b) as [Eb|Nb].
      + subst b; simpl; do 3 f_equal.
        apply map_ext_in; intros c Hc; destruct (eq_dec a c) as [Ec|]; [subst c; tauto|auto].
      + destruct Ha as [Ea|Ha]; [congruence|]. rewrite IH by auto; lia.
  Qed.

  Lemma hs_image_sum im : fits (length (pix im)) ->
    list_sum (map snd (hs_image ltb im)) = length (pix im).
  Proof.
    intros F; destruct (hs_image_spec im F) as [S H].
    rewrite <- (occ_sum (map fst (hs_image ltb im)) (NoDup_keys _ S) (pix im)).
    - f_equal; rewrite map_map; apply map_ext_in; intros [k c] Hk; simpl.
      pose proof (in_find k c _ S Hk) as E; rewrite H in E.
      destruct (occk (pix im) k); [discriminate|congruence].
    - intros a Ha; apply (count_occ_In eq_dec) in Ha; specialize (H a).
      destruct (occk (pix im) a) eqn:E; [lia|].
      apply find_in in H; apply (in_map fst) in H; auto.
  Qed.

  (** copying a map entry by entry *)
  Lemma emplace_all {V W} (f : K * V -> W) (m : list (K * V)) : sorted m ->
    fold_left (fun out kv => map_emplace ltb (fst kv) (f kv) out) m [] = map (fun kv => (fst kv, f kv)) m.
  Proof.
    intros S.
    enough (G : forall acc, (forall e e', In e acc -> In e' m -> ltb (fst e) (fst e') = true) ->
              fold_left (fun out kv => map_emplace ltb (fst kv) (f kv) out) m acc =
              acc ++ map (fun kv => (fst kv, f kv)) m).
    { apply (G []); intros ? ? []. }
    induction m as [|[k v] m IH]; intros acc Ha; simpl; [rewrite app_nil_r; auto|].
    assert (E : map_emplace ltb k (f (k, v)) acc = acc ++ [(k, f (k, v))]).
    { assert (Hk : forall e, In e acc -> ltb (fst e) k = true).
      { intros e He; apply (Ha e (k, v)); simpl; auto. }
      clear - Hk irrefl trans; unfold map_emplace; induction acc as [|[k1 w1] acc IHa]; simpl; auto.
      pose proof (Hk (k1, w1) (or_introl eq_refl)) as Hx; simpl in Hx.
      rewrite (asym _ _ Hx), Hx; f_equal; apply IHa; intros; apply Hk; simpl; auto. }
    destruct S as [B S]; simpl in B.
    rewrite E, IH; auto.
    - rewrite <- app_assoc; auto.
    - intros e e' He He'; apply in_app_iff in He as [He|[<-|[]]].
      + apply Ha; simpl; auto.
      + simpl; rewrite Forall_forall in B; apply (B e'); auto.
  Qed.
End SparseProofs.

(** ** probabilities *)
Definition qsum (l : list Q) : Q := fold_right Qplus 0%Q l.

Lemma q_of_add a b : (q_of (a + b) == q_of a + q_of b)%Q.
Proof. unfold q_of; rewrite Nat2Z.inj_add, inject_Z_plus; reflexivity. Qed.

Lemma qsum_div (h : list nat) (t : Q) : (qsum (map (fun c => q_of c / t) h) == q_of (list_sum h) / t)%Q.
Proof.
  induction h as [|c h IH]; cbn [map qsum fold_right list_sum]; [reflexivity|].
  fold (qsum (map (fun c => q_of c / t)%Q h)); rewrite IH.
  change (fold_right Nat.add 0 h) with (list_sum h).
  rewrite q_of_add; unfold Qdiv; ring.
Qed.

Lemma q_of_pos n : 0 < n -> (0 < q_of n)%Q.
Proof. intros H; unfold q_of, Qlt; simpl; lia. Qed.
Lemma q_of_nonneg n : (0 <= q_of n)%Q.
Proof. unfold q_of, Qle; simpl; lia. Qed.

Lemma qdiv_nonneg a b : 0 < b -> (0 <= q_of a / q_of b)%Q.
Proof. intros H; apply Qle_shift_div_l; [apply q_of_pos; auto|]; rewrite Qmult_0_l; apply q_of_nonneg. Qed.

Lemma fill_vec {B} (n : nat) (g : nat -> res B) (f : nat -> B) (out : list B) :
  length out = n -> (forall i, i < n -> g i = Ok (f i)) ->
  for_range n (fun i out => let* v := g i in vset out i v) out = Ok (map f (seq 0 n)).
Proof.
  intros L H.
  destruct (for_range_inv n (fun i o => length o = n /\ forall k, k < i -> nth_error o k = Some (f k))
    (fun i out => let* v := g i in vset out i v) out) as (o & E & Lo & Ho).
  - split; auto; intros; lia.
  - intros i o Hi [Lo Ho]; rewrite H by auto; cbn [bind]; rewrite vset_ok by lia.
    eexists; split; [reflexivity|]; rewrite list_upd_length; split; auto.
    intros k Hk; destruct (Nat.eq_dec k i) as [->|N]; [apply list_upd_same; lia|].
    rewrite list_upd_other by auto; apply Ho; lia.
  - rewrite E; f_equal; apply nth_error_ext_len; [rewrite map_length, seq_length; auto|].
    intros k Hk; rewrite Ho by lia; symmetry; apply nth_error_map_some; rewrite nth_error_seq by lia; auto.
Qed.

Lemma map_seq_nth {A B} (f : A -> B) (d : A) (h : list A) :
  map (fun i => f (nth i h d)) (seq 0 (length h)) = map f h.
Proof.
  induction h as [|a h IH]; simpl; auto; f_equal; rewrite <- seq_shift, map_map; auto.
Qed.

Lemma vget_nth {A} (l : list A) i d : i < length l -> vget l i = Ok (nth i l d).
Proof. intros H; apply vget_ok; apply nth_error_nth'; auto. Qed.

Lemma hd_normalize_ok h t : hd_normalize (length h) h t = Ok (map (fun c => q_of c / q_of t)%Q h).
Proof.
  unfold hd_normalize.
  rewrite <- (map_seq_nth (fun c => q_of c / q_of t)%Q 0 h).
  assert (E : forall n out, n <= length h ->
    for_range n (fun i out => let* c := vget h i in vset out i (q_of c / q_of t)%Q) out =
    for_range n (fun i out => let* v := (let* c := vget h i in Ok (q_of c / q_of t)%Q) in vset out i v) out).
  { intros n out Hn; apply for_list_ext; intros i o Hi; apply in_seq in Hi.
    rewrite (vget_nth h i 0) by lia; reflexivity. }
  rewrite E by auto; apply fill_vec; [apply repeat_length|].
  intros i Hi; rewrite (vget_nth h i 0) by auto; reflexivity.
Qed.

Lemma hd_probabilities_ok h t : hd_probabilities (length h) h t = Ok (map (fun c => q_of c / q_of t)%Q h).
Proof.
  rewrite <- hd_normalize_ok; unfold hd_probabilities, hd_normalize.
  apply for_list_ext; intros i o Hi; apply in_seq in Hi.
  unfold hd_count; destruct (Nat.ltb_spec i (length h)); [reflexivity|lia].
Qed.

(** ** Otsu *)
Open Scope Q_scope.

(** class weights and first moments of a histogram split after bin t *)
Definition wsum (h : list Q) (is_ : list nat) : Q := qsum (map (fun i => nth i h 0) is_).
Definition msum (h : list Q) (is_ : list nat) : Q := qsum (map (fun i => q_of i * nth i h 0) is_).
Definition lo_bins (t : nat) : list nat := seq 0 (S t).
Definition hi_bins (h : list Q) (t : nat) : list nat := seq (S t) (length h - S t).
Definition sigma (w1 w2 m1 m2 : Q) : Q := w1 * w2 * (m1 / w1 - m2 / w2) * (m1 / w1 - m2 / w2).
Definition between_var (h : list Q) (t : nat) : Q :=
  sigma (wsum h (lo_bins t)) (wsum h (hi_bins h t)) (msum h (lo_bins t)) (msum h (hi_bins h t)).
Definition separates (h : list Q) (t : nat) : Prop :=
  (t < length h)%nat /\ 0 < wsum h (lo_bins t) /\ 0 < wsum h (hi_bins h t).

Lemma qsum_app a b : qsum (a ++ b) == qsum a + qsum b.
Proof. induction a as [|x a IH]; simpl; [ring|]. unfold qsum in IH; rewrite IH; unfold qsum; ring. Qed.

Lemma wsum_app h a b : wsum h (a ++ b) == wsum h a + wsum h b.
Proof. unfold wsum; rewrite map_app; apply qsum_app. Qed.
Lemma msum_app h a b : msum h (a ++ b) == msum h a + msum h b.
Proof. unfold msum; rewrite map_app; apply qsum_app. Qed.

Global Instance sigma_proper : Morphisms.Proper (Qeq ==> Qeq ==> Qeq ==> Qeq ==> Qeq)%signature sigma.
Proof. unfold sigma; intros a a' Ha b b' Hb c c' Hc d d' Hd; rewrite Ha, Hb, Hc, Hd; reflexivity. Qed.

Lemma qsum_nonneg l : Forall (fun x => 0 <= x) l -> 0 <= qsum l.
Proof.
  induction 1 as [|x l Hx Hl IH]; [apply Qle_refl|].
  change (0 <= x + qsum l); lra.
Qed.

Lemma wsum_nonneg h is_ : Forall (fun x => 0 <= x) h -> 0 <= wsum h is_.
Proof.
  intros F; unfold wsum; apply qsum_nonneg, Forall_map, Forall_forall; intros i _.
  destruct (Nat.lt_ge_cases i (length h)) as [Hi|Hi].
  - rewrite Forall_forall in F; apply F, nth_In; auto.
  - rewrite nth_overflow by auto; lra.
Qed.

Section OtsuProof.
  Variable h : list Q.
  Hypothesis nonneg : Forall (fun x => 0 <= x) h.
  Let n := length h.

  Definition otsu_inv (i : nat) (st : otsu_st) : Prop :=
    ow1 st == wsum h (seq 0 i) /\ ow2 st == wsum h (seq i (n - i)) /\
    om1 st == msum h (seq 0 i) /\ om2 st == msum h (seq i (n - i)) /\
    ((obest st = -1000000 /\ forall u, (u < i)%nat -> ~ separates h u) \/
     ((oind st < i)%nat /\ separates h (oind st) /\ obest st == between_var h (oind st) /\
      (forall u, (u < i)%nat -> separates h u -> between_var h u <= between_var h (oind st)) /\
      (forall u, (u < oind st)%nat -> separates h u -> between_var h u < between_var h (oind st)))).

  Lemma sigma_nonneg w1 w2 m1 m2 : 0 <= w1 -> 0 <= w2 -> 0 <= sigma w1 w2 m1 m2.
  Proof.
    intros H1 H2; unfold sigma; set (c := m1 / w1 - m2 / w2).
    setoid_replace (w1 * w2 * c * c) with ((w1 * w2) * (c * c)) by ring.
    apply Qmult_le_0_compat; [apply Qmult_le_0_compat; auto|].
    destruct (Qlt_le_dec c 0) as [L|L].
    - setoid_replace (c * c) with ((- c) * (- c)) by ring; apply Qmult_le_0_compat; lra.
    - apply Qmult_le_0_compat; auto.
  Qed.

  Lemma seq_S_app i : seq 0 (S i) = seq 0 i ++ [i].
  Proof. rewrite seq_S; reflexivity. Qed.

  Lemma otsu_step_inv i st : (i < n)%nat -> otsu_inv i st -> exists st', otsu_step h i st = Ok st' /\ otsu_inv (S i) st'.
  Proof.
    intros Hi (W1 & W2 & M1 & M2 & B).
    assert (E1 : ow1 st + nth i h 0 == wsum h (lo_bins i)).
    { unfold lo_bins; rewrite seq_S_app, wsum_app, W1; unfold wsum; simpl; ring. }
    assert (E2 : ow2 st - nth i h 0 == wsum h (hi_bins h i)).
    { unfold hi_bins; fold n; rewrite W2; replace (n - i)%nat with (S (n - S i)) by lia.
      cbn [seq]; unfold wsum; simpl; ring. }
    assert (E3 : om1 st + nth i h 0 * q_of i == msum h (lo_bins i)).
    { unfold lo_bins; rewrite seq_S_app, msum_app, M1; unfold msum; simpl; ring. }
    assert (E4 : om2 st - nth i h 0 * q_of i == msum h (hi_bins h i)).
    { unfold hi_bins; fold n; rewrite M2; replace (n - i)%nat with (S (n - S i)) by lia.
      cbn [seq]; unfold msum; simpl; ring. }
    pose proof (wsum_nonneg h (lo_bins i) nonneg) as N1.
    pose proof (wsum_nonneg h (hi_bins h i) nonneg) as N2.
    unfold otsu_step; rewrite (vget_nth h i 0) by auto; cbn [bind].
    set (w1 := ow1 st + nth i h 0) in *; set (w2 := ow2 st - nth i h 0) in *.
    set (m1 := om1 st + nth i h 0 * q_of i) in *; set (m2 := om2 st - nth i h 0 * q_of i) in *.
    (* the state when the best candidate is kept *)
    assert (Keep : (separates h i -> between_var h i <= obest st) ->
      otsu_inv (S i) (mkOtsu w1 w2 m1 m2 (obest st) (oind st))).
    { intros Hk; unfold otsu_inv; cbn [ow1 ow2 om1 om2 obest oind].
      repeat (split; [assumption|]).
      destruct B as [[Eb Hb]|(Hx & Sx & Ex & Ax & Bx)].
      - left; split; auto; intros u Hu Su.
        destruct (Nat.eq_dec u i) as [Eu|Nu]; [|apply (Hb u); auto; lia].
        subst u; specialize (Hk Su); rewrite Eb in Hk.
        assert (0 <= between_var h i) by (apply sigma_nonneg; auto); lra.
      - right; split; [lia|]; split; auto; split; auto; split; auto.
        intros u Hu Su; destruct (Nat.eq_dec u i) as [Eu|Nu]; [|apply Ax; auto; lia].
        subst u; rewrite <- Ex; auto. }
    unfold fdiv; destruct (Qeq_bool w1 0) eqn:Z1.
    { eexists; split; [reflexivity|]; apply Keep; intros (_ & P & _).
      apply Qeq_bool_eq in Z1; rewrite E1 in Z1; lra. }
    destruct (Qeq_bool w2 0) eqn:Z2.
    { eexists; split; [reflexivity|]; apply Keep; intros (_ & _ & P).
      apply Qeq_bool_eq in Z2; rewrite E2 in Z2; lra. }
    apply Qeq_bool_neq in Z1, Z2; rewrite E1 in Z1; rewrite E2 in Z2.
    assert (Si : separates h i) by (split; [exact Hi|split; lra]).
    assert (Ess : w1 * w2 * (m1 / w1 - m2 / w2) * (m1 / w1 - m2 / w2) == between_var h i).
    { change (sigma w1 w2 m1 m2 == between_var h i); unfold between_var.
      rewrite E1, E2, E3, E4; reflexivity. }
    set (ss := w1 * w2 * (m1 / w1 - m2 / w2) * (m1 / w1 - m2 / w2)) in *.
    destruct (Qle_bool ss (obest st)) eqn:Q.
    - eexists; split; [reflexivity|]; apply Keep; intros _.
      apply Qle_bool_iff in Q; rewrite Ess in Q; auto.
    - eexists; split; [reflexivity|].
      assert (Lt : obest st < between_var h i).
      { rewrite <- Ess; apply Qnot_le_lt; intros C; apply Qle_bool_iff in C; congruence. }
      unfold otsu_inv; cbn [ow1 ow2 om1 om2 obest oind].
      repeat (split; [assumption|]).
      right; split; [lia|]; split; auto; split; auto.
      assert (A : forall u, (u < i)%nat -> separates h u -> between_var h u < between_var h i).
      { intros u Hu Su; destruct B as [[Eb Hb]|(Hx & Sx & Ex & Ax & Bx)].
        - exfalso; apply (Hb u); auto.
        - specialize (Ax u Hu Su); rewrite <- Ex in Ax; lra. }
      split; auto.
      intros u Hu Su; destruct (Nat.eq_dec u i) as [Eu|Nu]; [subst u; apply Qle_refl|].
      apply Qlt_le_weak, A; auto; lia.
  Qed.

  Lemma otsu_totals : exists w m, for_range n (fun ii wm =>
      let* x := vget h ii in Ok (fst wm + x, snd wm + x * q_of ii)) (0, 0) = Ok (w, m) /\
      w == wsum h (seq 0 n) /\ m == msum h (seq 0 n).
  Proof.
    destruct (for_range_inv n (fun i wm => fst wm == wsum h (seq 0 i) /\ snd wm == msum h (seq 0 i))
      (fun ii wm => let* x := vget h ii in Ok (fst wm + x, snd wm + x * q_of ii)) (0, 0)) as ([w m] & E & Hw & Hm).
    - split; reflexivity.
    - intros i [w m] Hi [Hw Hm]; rewrite (vget_nth h i 0) by auto; cbn [bind fst snd] in *.
      eexists; split; [reflexivity|]; cbn [fst snd].
      rewrite seq_S_app, wsum_app, msum_app, Hw, Hm; unfold wsum, msum; simpl; split; ring.
    - exists w, m; split; auto.
  Qed.

  Lemma otsu_spec :
    ((forall u, ~ separates h u) -> otsu h = Ok (length h)) /\
    (forall v, separates h v -> exists t, otsu h = Ok t /\ separates h t /\
      (forall u, separates h u -> between_var h u <= between_var h t) /\
      (forall u, (u < t)%nat -> separates h u -> between_var h u < between_var h t)).
  Proof.
    destruct otsu_totals as (w & m & E & Ew & Em).
    destruct (for_range_inv n otsu_inv (otsu_step h) (mkOtsu 0 w 0 m (-1000000) 0)) as (st & Es & Hst).
    - unfold otsu_inv; cbn [ow1 ow2 om1 om2 obest oind seq]; rewrite Nat.sub_0_r.
      repeat split; auto; try reflexivity; left; split; auto; intros; lia.
    - intros; apply otsu_step_inv; auto.
    - unfold otsu; fold n; rewrite E; cbn [bind fst snd]; rewrite Es; cbn [bind].
      destruct Hst as (_ & _ & _ & _ & [[Eb Hb]|(Hx & Sx & Ex & Ax & Bx)]).
      + rewrite Eb; split; auto.
        intros v Sv; exfalso; apply (Hb v); auto; apply Sv.
      + split; [intros C; exfalso; apply (C _ Sx)|].
        intros v Sv.
        assert (0 <= between_var h (oind st)).
        { apply sigma_nonneg; apply wsum_nonneg; auto. }
        destruct (Qeq_bool (obest st) (-1000000)) eqn:Q.
        { apply Qeq_bool_eq in Q; rewrite Ex in Q; lra. }
        exists (oind st); split; auto; split; auto; split; auto.
        intros u Su; apply Ax; auto; apply Su.
  Qed.
End OtsuProof.
Close Scope Q_scope.

(** ** sums of counts over ranges of values *)
Definition memb (ks : list nat) (v : nat) : bool := existsb (Nat.eqb v) ks.

Lemma memb_in ks v : memb ks v = true <-> In v ks.
Proof.
  unfold memb; rewrite existsb_exists; split.
  - intros (x & H & E); apply Nat.eqb_eq in E; subst; auto.
  - intros H; exists v; split; auto; apply Nat.eqb_refl.
Qed.

Lemma ind_sum (f : nat -> nat) (g : nat -> nat) ks a : NoDup ks ->
  list_sum (map (fun i => g i * (if Nat.eq_dec a i then S (f i) else f i)) ks) =
  (if memb ks a then g a else 0) + list_sum (map (fun i => g i * f i) ks).
Proof.
  induction ks as [|b ks IH]; intros ND; simpl; auto.
  apply NoDup_cons_iff in ND as [NI ND]; rewrite IH by auto.
  destruct (Nat.eq_dec a b) as [E|N].
  - subst b; rewrite Nat.eqb_refl; simpl.
    destruct (memb ks a) eqn:M; [apply memb_in in M; tauto|]; nia.
  - apply Nat.eqb_neq in N; rewrite N; simpl; fold (memb ks a); lia.
Qed.

Lemma occ_moment (g : nat -> nat) ks l : NoDup ks ->
  list_sum (map (fun i => g i * occ l i) ks) = list_sum (map g (filter (memb ks) l)).
Proof.
  intros ND; induction l as [|a l IH].
  - cbn [filter map list_sum fold_right]; clear ND; induction ks as [|k ks IHk]; simpl in *; auto.
    rewrite Nat.mul_0_r; auto.
  - etransitivity; [|etransitivity; [apply (ind_sum (fun i => occ l i) g ks a ND)|]].
    + f_equal; apply List.map_ext; intros i; reflexivity.
    + rewrite IH; cbn [filter]; destruct (memb ks a); auto.
Qed.

Lemma list_sum_ones {A} (l : list A) : list_sum (map (fun _ => 1) l) = length l.
Proof. induction l; simpl; auto. Qed.

Lemma occ_weight ks l : NoDup ks -> list_sum (map (occ l) ks) = length (filter (memb ks) l).
Proof.
  intros ND; rewrite <- list_sum_ones, <- (occ_moment (fun _ => 1)) by auto.
  f_equal; apply List.map_ext; intros; lia.
Qed.

Lemma memb_seq a b v : memb (seq a b) v = (a <=? v) && (v <? a + b).
Proof.
  apply eq_true_iff_eq; rewrite memb_in, in_seq, andb_true_iff, Nat.leb_le, Nat.ltb_lt; tauto.
Qed.

Section OtsuImage.
  Open Scope Q_scope.
  Variable R : nat.
  Variable l : list nat.
  Hypothesis Hl : Forall (fun v => (v < R)%nat) l.
  Hypothesis Hne : l <> [].

  Let T := q_of (length l).
  Let p := map (fun i => q_of (occ l i) / T) (seq 0 R).

  Lemma T_pos : 0 < T.
  Proof. apply q_of_pos; destruct l; [congruence|simpl; lia]. Qed.

  Lemma p_length : length p = R.
  Proof. unfold p; rewrite map_length, seq_length; auto. Qed.

  Lemma p_nth i : (i < R)%nat -> nth i p 0 = q_of (occ l i) / T.
  Proof.
    intros H; unfold p; apply nth_error_nth; apply nth_error_map_some with (f := fun i => q_of (occ l i) / T).
    rewrite nth_error_seq by auto; reflexivity.
  Qed.

  Lemma p_nonneg : Forall (fun x => 0 <= x) p.
  Proof.
    apply Forall_map, Forall_forall; intros i _; apply qdiv_nonneg.
    destruct l; [congruence|simpl; lia].
  Qed.

  Lemma q_of_list_sum {A} (g : A -> nat) (is_ : list A) (c : Q) :
    q_of (list_sum (map g is_)) * c == qsum (map (fun i => q_of (g i) * c) is_).
  Proof.
    induction is_ as [|i is_ IH]; [unfold q_of; simpl; ring|].
    change (q_of (g i + list_sum (map g is_)) * c == q_of (g i) * c + qsum (map (fun i => q_of (g i) * c) is_)).
    rewrite <- IH, q_of_add; ring.
  Qed.

  Lemma qsum_ext {A} (f g : A -> Q) is_ : (forall i, In i is_ -> f i == g i) -> qsum (map f is_) == qsum (map g is_).
  Proof.
    induction is_ as [|i is_ IH]; intros H; [reflexivity|].
    change (f i + qsum (map f is_) == g i + qsum (map g is_)).
    rewrite IH by (intros; apply H; simpl; auto); rewrite (H i) by (simpl; auto); reflexivity.
  Qed.

  Lemma p_wsum ks : NoDup ks -> (forall k, In k ks -> (k < R)%nat) ->
    wsum p ks == q_of (length (filter (memb ks) l)) / T.
  Proof.
    intros ND Hk; rewrite <- (occ_weight ks l ND); unfold Qdiv; rewrite q_of_list_sum; unfold wsum.
    apply qsum_ext; intros i Hi; rewrite p_nth by auto; reflexivity.
  Qed.

  Lemma p_msum ks : NoDup ks -> (forall k, In k ks -> (k < R)%nat) ->
    msum p ks == q_of (list_sum (filter (memb ks) l)) / T.
  Proof.
    intros ND Hk; rewrite <- (map_id (filter (memb ks) l)), <- (occ_moment (fun i => i) ks l ND).
    unfold Qdiv; rewrite q_of_list_sum; unfold msum.
    apply qsum_ext; intros i Hi; rewrite p_nth by auto; unfold q_of, Qdiv.
    rewrite Nat2Z.inj_mul, inject_Z_mult; ring.
  Qed.

  (** the two classes of pixels *)
  Definition lower (t : nat) : list nat := filter (fun v => v <=? t)%nat l.
  Definition upper (t : nat) : list nat := filter (fun v => t <? v)%nat l.
  Definition pixel_var (t : nat) : Q :=
    sigma (q_of (length (lower t))) (q_of (length (upper t))) (q_of (list_sum (lower t))) (q_of (list_sum (upper t))).

  Lemma lo_filter t : filter (memb (lo_bins t)) l = lower t.
  Proof. apply filter_ext; intros v; unfold lo_bins; rewrite memb_seq; apply eq_true_iff_eq; lia. Qed.
  Lemma hi_filter t : (t < R)%nat -> filter (memb (hi_bins p t)) l = upper t.
  Proof.
    intros Ht; apply filter_ext_in; intros v Hv; unfold hi_bins; rewrite memb_seq, p_length.
    rewrite Forall_forall in Hl; specialize (Hl v Hv); apply eq_true_iff_eq; lia.
  Qed.

  Lemma lo_nodup t : NoDup (lo_bins t).
  Proof. apply seq_NoDup. Qed.
  Lemma hi_nodup t : NoDup (hi_bins p t).
  Proof. apply seq_NoDup. Qed.
  Lemma lo_range t k : (t < R)%nat -> In k (lo_bins t) -> (k < R)%nat.
  Proof. unfold lo_bins; rewrite in_seq; lia. Qed.
  Lemma hi_range t k : In k (hi_bins p t) -> (k < R)%nat.
  Proof. unfold hi_bins; rewrite in_seq, p_length; lia. Qed.

  Lemma filter_pos {A} (f : A -> bool) (m : list A) : (0 < length (filter f m))%nat <-> exists v, In v m /\ f v = true.
  Proof.
    split.
    - destruct (filter f m) as [|v r] eqn:E; simpl; [lia|].
      intros _; exists v; apply filter_In; rewrite E; simpl; auto.
    - intros (v & H1 & H2); assert (H : In v (filter f m)) by (apply filter_In; auto).
      destruct (filter f m); [inversion H|simpl; lia].
  Qed.

  Lemma q_div_pos n : 0 < q_of n / T <-> (0 < n)%nat.
  Proof.
    pose proof T_pos as HT; split.
    - intros H; destruct n; [|lia]; exfalso.
      assert (q_of 0 / T == 0) as E by (unfold q_of, Qdiv; simpl; ring); rewrite E in H; lra.
    - intros H; apply Qlt_shift_div_l; auto; rewrite Qmult_0_l; apply q_of_pos; auto.
  Qed.

  Lemma separates_pixels t :
    separates p t <-> (exists v, In v l /\ (v <= t)%nat) /\ (exists v, In v l /\ (t < v)%nat).
  Proof.
    unfold separates; rewrite p_length; split.
    - intros (Ht & H1 & H2).
      rewrite (p_wsum _ (lo_nodup t)), lo_filter, q_div_pos in H1 by (intros; eapply lo_range; eauto).
      rewrite (p_wsum _ (hi_nodup t)), hi_filter, q_div_pos in H2 by (intros; eauto using hi_range; auto).
      apply filter_pos in H1 as (v & Hv & E1); apply filter_pos in H2 as (u & Hu & E2).
      apply Nat.leb_le in E1; apply Nat.ltb_lt in E2; split; eauto.
    - intros ((v & Hv & E1) & (u & Hu & E2)).
      assert (Ht : (t < R)%nat) by (rewrite Forall_forall in Hl; specialize (Hl u Hu); lia).
      split; auto.
      rewrite (p_wsum _ (lo_nodup t)), lo_filter, q_div_pos by (intros; eapply lo_range; eauto).
      rewrite (p_wsum _ (hi_nodup t)), hi_filter, q_div_pos by (intros; eauto using hi_range; auto).
      split; apply filter_pos; [exists v; rewrite Nat.leb_le|exists u; rewrite Nat.ltb_lt]; auto.
  Qed.

  Lemma between_pixels t : separates p t -> between_var p t == pixel_var t / (T * T).
  Proof.
    intros S; pose proof S as (Ht & H1 & H2); rewrite p_length in Ht.
    rewrite (p_wsum _ (lo_nodup t)), lo_filter, q_div_pos in H1 by (intros; eapply lo_range; eauto).
    rewrite (p_wsum _ (hi_nodup t)), hi_filter, q_div_pos in H2 by (intros; eauto using hi_range; auto).
    unfold between_var, pixel_var.
    rewrite (p_wsum _ (lo_nodup t)), (p_wsum _ (hi_nodup t)), (p_msum _ (lo_nodup t)), (p_msum _ (hi_nodup t));
      try (intros; eapply lo_range; eauto; fail); try (apply hi_range).
    rewrite lo_filter, hi_filter by auto.
    pose proof T_pos as HT; apply q_of_pos in H1, H2.
    unfold sigma; field; repeat split; intros C; rewrite C in *; lra.
  Qed.

  Lemma scale_le a b : a / (T * T) <= b / (T * T) <-> a <= b.
  Proof.
    pose proof T_pos as HT; assert (P : 0 < T * T) by nra.
    split; intros H.
    - apply (Qmult_le_compat_r _ _ (T * T)) in H; [|lra].
      assert (E : forall x, x / (T * T) * (T * T) == x) by (intros; field; lra).
      rewrite !E in H; auto.
    - apply Qle_shift_div_l; auto.
      assert (E : a / (T * T) * (T * T) == a) by (field; lra); rewrite E; auto.
  Qed.

  Lemma otsu_pixels :
    ((forall t, ~ separates p t) -> otsu p = Ok R) /\
    (forall t0, separates p t0 -> exists t, otsu p = Ok t /\ separates p t /\
      (forall u, separates p u -> pixel_var u <= pixel_var t) /\
      (forall u, (u < t)%nat -> separates p u -> pixel_var u < pixel_var t)).
  Proof.
    destruct (otsu_spec p p_nonneg) as [H0 H1]; rewrite p_length in H0; split; auto.
    intros t0 S0; destruct (H1 t0 S0) as (t & E & S & A & B); exists t; split; auto; split; auto; split.
    - intros u Su; apply scale_le; rewrite <- !between_pixels by auto; auto.
    - intros u Hu Su; apply Qnot_le_lt; intros C; apply scale_le in C.
      rewrite <- !between_pixels in C by auto; specialize (B u Hu Su); lra.
  Qed.
End OtsuImage.

(** ** bins *)
Lemma bin_of_zero bins mx v : (0 < mx)%Z -> (0 <= v)%Z ->
  bin_of bins 0 mx v = Ok (Z.to_nat (v * Z.of_nat bins / mx)).
Proof.
  intros Hm Hv; unfold bin_of.
  assert (E : Qfloor (inject_Z v * q_of bins / (inject_Z mx - inject_Z 0)) = (v * Z.of_nat bins / mx)%Z).
  { rewrite Zdiv_Qdiv; apply Qfloor_comp; unfold q_of, Qminus; rewrite <- inject_Z_mult.
    rewrite <- inject_Z_opp, <- inject_Z_plus; simpl Z.opp; rewrite Z.add_0_r; reflexivity. }
  rewrite E; destruct (Z.ltb_spec (v * Z.of_nat bins / mx) 0); [|reflexivity].
  assert (0 <= v * Z.of_nat bins / mx)%Z by (apply Z.div_pos; nia); lia.
Qed.

(** value [v] belongs to bin [k] of the uniform partition of [lowest, mx] into [bins] bins, the last one closed *)
Definition in_bin (bins : nat) (lowest mx v : Z) (k : nat) : bool :=
  ((Z.of_nat k * (mx - lowest) <=? (v - lowest) * Z.of_nat bins) &&
   ((v - lowest) * Z.of_nat bins <? (Z.of_nat k + 1) * (mx - lowest)) ||
   (v =? mx) && (S k =? bins)%nat)%Z.

Definition bin_index (bins : nat) (mx v : Z) : nat :=
  if (v =? mx)%Z then bins - 1 else Z.to_nat (v * Z.of_nat bins / mx).

Lemma bin_index_lt bins mx v : 0 < bins -> (0 <= v <= mx)%Z -> (0 < mx)%Z -> bin_index bins mx v < bins.
Proof.
  intros Hb Hv Hm; unfold bin_index; destruct (Z.eqb_spec v mx); [lia|].
  assert (v * Z.of_nat bins / mx < Z.of_nat bins)%Z by (apply Z.div_lt_upper_bound; nia).
  assert (0 <= v * Z.of_nat bins / mx)%Z by (apply Z.div_pos; nia); lia.
Qed.

Lemma bin_index_spec bins mx v k : 0 < bins -> (0 <= v <= mx)%Z -> (0 < mx)%Z -> k < bins ->
  in_bin bins 0 mx v k = (bin_index bins mx v =? k).
Proof.
  intros Hb Hv Hm Hk; unfold in_bin, bin_index; rewrite !Z.sub_0_r.
  pose proof (Z.div_mod (v * Z.of_nat bins) mx ltac:(lia)) as D.
  pose proof (Z.mod_pos_bound (v * Z.of_nat bins) mx Hm) as Bd.
  set (q := (v * Z.of_nat bins / mx)%Z) in *; set (r := ((v * Z.of_nat bins) mod mx)%Z) in *; clearbody q r.
  apply eq_true_iff_eq; rewrite orb_true_iff, !andb_true_iff, Z.leb_le, Z.ltb_lt, Z.eqb_eq, !Nat.eqb_eq.
  destruct (Z.eqb_spec v mx) as [Ev|Nv].
  - subst v; split.
    + intros [[H1 H2]|[_ H2]]; [|lia]; assert (Z.of_nat bins < Z.of_nat k + 1)%Z by nia; lia.
    + intros H; right; lia.
  - assert (q0 : (0 <= q)%Z) by nia.
    split.
    + intros [[H1 H2]|[H1 _]]; [|lia].
      assert (Z.of_nat k < q + 1)%Z by nia; assert (q < Z.of_nat k + 1)%Z by nia; lia.
    + intros H; left; assert (q = Z.of_nat k) by lia; subst q; nia.
Qed.

Lemma histogram_with_bins_adds bins mx im : 0 < bins -> fits bins -> (0 < mx)%Z ->
  Forall (fun v => 0 <= v <= mx)%Z (pix im) ->
  histogram_with_bins bins 0 mx im = for_list (map (bin_index bins mx) (pix im)) hd_add (repeat 0 bins).
Proof.
  intros Hb Fb Hm F; rewrite for_list_map; unfold histogram_with_bins.
  apply for_list_ext; intros v out Hv; rewrite Forall_forall in F; specialize (F v Hv).
  rewrite bin_of_zero by lia; cbn [bind]; unfold hd_add.
  assert (E : (if Z.to_nat (v * Z.of_nat bins / mx) =? bins then usub bins 1
               else Z.to_nat (v * Z.of_nat bins / mx)) = bin_index bins mx v).
  { unfold bin_index; rewrite usub_le by (auto; lia).
    destruct (Z.eqb_spec v mx) as [->|N].
    - rewrite (Z.mul_comm mx), Z.div_mul, Nat2Z.id, Nat.eqb_refl by lia; auto.
    - assert (v * Z.of_nat bins / mx < Z.of_nat bins)%Z by (apply Z.div_lt_upper_bound; nia).
      assert (0 <= v * Z.of_nat bins / mx)%Z by (apply Z.div_pos; nia).
      destruct (Nat.eqb_spec (Z.to_nat (v * Z.of_nat bins / mx)) bins); [lia|auto]. }
  rewrite E; reflexivity.
Qed.

(** ** histogram_normalized *)
Lemma hnd_loop (w : Q) l : forall out, Forall (fun v => v < length out) l ->
  exists out', for_list l (fun v out => let* p := vget out v in vset out v (p + w)%Q) out = Ok out' /\
    length out' = length out /\
    forall v q, nth_error out v = Some q -> exists q', nth_error out' v = Some q' /\ (q' == q + q_of (occ l v) * w)%Q.
Proof.
  induction l as [|a l IH]; intros out L.
  - exists out; repeat split; auto; intros v q E; exists q; split; auto; unfold q_of; simpl; ring.
  - inversion L as [|? ? La Ll]; subst.
    destruct (vget_lt out a La) as (c & E1 & E2).
    cbn [for_list]; rewrite E1; cbn [bind]; rewrite vset_ok by auto; cbn [bind].
    destruct (IH (list_upd a (c + w)%Q out)) as (o & E & Lo & Ho); [rewrite list_upd_length; auto|].
    exists o; rewrite list_upd_length in Lo; split; auto; split; auto.
    intros v q Hv; cbn [count_occ]; destruct (Nat.eq_dec a v) as [Ev|Nv].
    + subst v; rewrite E2 in Hv; injection Hv as <-.
      destruct (Ho a (c + w)%Q) as (q' & Eq & Q); [apply list_upd_same; auto|].
      exists q'; split; auto; rewrite Q.
      change (S (occ l a)) with (1 + occ l a); rewrite q_of_add; change (q_of 1) with 1%Q; ring.
    + apply Ho; rewrite list_upd_other by auto; auto.
Qed.

Section SparseNorm.
  Context {K : Type} (ltb : K -> K -> bool) (eq_dec : forall a b : K, {a = b} + {a <> b}).
  Hypothesis irrefl : forall a, ltb a a = false.
  Hypothesis trans : forall a b c, ltb a b = true -> ltb b c = true -> ltb a c = true.
  Hypothesis total : forall a b, ltb a b = false -> ltb b a = false -> a = b.
  Notation occk := (count_occ eq_dec).

  (** probability of a key, zero when absent *)
  Definition prob (m : list (K * Q)) (k : K) : Q := match map_find ltb k m with Some q => q | None => 0%Q end.

  Lemma hns_loop (w : Q) l : forall m, sorted ltb m ->
    let m' := fold_left (fun out k =>
      match map_find ltb k out with
      | Some _ => map_upd ltb 0%Q (fun p => p + w)%Q k out
      | None => map_emplace ltb k w out
      end) l m in
    sorted ltb m' /\ (forall k, prob m' k == prob m k + q_of (occk l k) * w)%Q /\
    (forall k, map_find ltb k m' = None <-> map_find ltb k m = None /\ ~ In k l).
  Proof.
    induction l as [|a l IH]; intros m S; cbn [fold_left].
    - split; auto; split; [intros k; unfold q_of; simpl; ring|intros k; simpl; tauto].
    - set (m1 := match map_find ltb a m with
                 | Some _ => map_upd ltb 0%Q (fun p => p + w)%Q a m
                 | None => map_emplace ltb a w m
                 end).
      assert (H : sorted ltb m1 /\ (forall k, prob m1 k == prob m k + (if eq_dec a k then w else 0))%Q /\
                  forall k, map_find ltb k m1 = None <-> map_find ltb k m = None /\ a <> k).
      { unfold m1, prob; destruct (map_find ltb a m) as [q|] eqn:E.
        - destruct (find_upd ltb eq_dec irrefl trans total 0%Q (fun p => p + w)%Q a m S) as (F & S' & _).
          split; auto; split; intros k; rewrite F; destruct (eq_dec k a) as [Ek|N].
          + subst k; rewrite E; destruct (eq_dec a a); [reflexivity|congruence].
          + destruct (eq_dec a k); [congruence|ring].
          + subst k; rewrite E; split; [discriminate|intros []; congruence].
          + split; [intros H; split; auto|intros []; auto].
        - unfold map_emplace.
          destruct (find_upd ltb eq_dec irrefl trans total w (fun p => p)%Q a m S) as (F & S' & _).
          split; auto; split; intros k; rewrite F; destruct (eq_dec k a) as [Ek|N].
          + subst k; rewrite E; destruct (eq_dec a a); [ring|congruence].
          + destruct (eq_dec a k); [congruence|ring].
          + subst k; rewrite E; split; [discriminate|intros []; congruence].
          + split; [intros H; split; auto|intros []; auto]. }
      destruct H as (S1 & P1 & N1); destruct (IH m1 S1) as (S2 & P2 & N2); split; auto; split.
      + intros k; rewrite P2, P1; cbn [count_occ]; destruct (eq_dec a k); [|ring].
        change (Datatypes.S (occk l k)) with (1 + occk l k); rewrite q_of_add; change (q_of 1) with 1%Q; ring.
      + intros k; rewrite N2, N1; simpl; tauto.
  Qed.
End SparseNorm.
