(** ConvNProofs.v - the N-dimensional convolution *)
From Coq Require Import ZifyBool ZifyNat.
From Verif Require Import Base ImageModel ImageFacts IndexModel ImageProofs GeomModel GeomProofs PadProofs CropProofs
  PixelModel PixelProofs ConvModel BigSum ConvProofs.
Open Scope nat_scope.

(** ** index tuples *)
(** all coordinate tuples of an image with extents [ds] *)
Definition all_idx (ds : list nat) : list (list nat) := map (unoff ds) (seq 0 (prodn ds)).

Lemma in_all_idx ds idx : In idx (all_idx ds) <-> in_range ds idx.
Proof.
  unfold all_idx; rewrite in_map_iff; split.
  - intros (k & <- & Hk); apply in_seq0 in Hk; apply unoff_spec, Hk.
  - intros H; exists (off ds idx); split; [apply off_unoff, H | apply in_seq0, off_lt, H].
Qed.

Lemma NoDup_all_idx ds : NoDup (all_idx ds).
Proof.
  apply NoDup_map_inj; [|apply seq_NoDup].
  intros a b Ha Hb E; apply in_seq0 in Ha, Hb.
  rewrite <- (proj2 (unoff_spec ds a Ha)), <- (proj2 (unoff_spec ds b Hb)), E; reflexivity.
Qed.

(** componentwise sum and difference *)
Fixpoint idx_add (a b : list nat) : list nat :=
  match a, b with x :: a', y :: b' => (x + y) :: idx_add a' b' | _, _ => [] end.
Fixpoint idx_sub (a b : list nat) : list nat :=
  match a, b with x :: a', y :: b' => (x - y) :: idx_sub a' b' | _, _ => [] end.
(** the extents of the full convolution *)
Fixpoint conv_dims (ds ks : list nat) : list nat :=
  match ds, ks with d :: ds', k :: ks' => (d + k - 1) :: conv_dims ds' ks' | _, _ => [] end.
(** [p - k] is a pixel of the image with extents [ds] *)
Fixpoint reachable (ds p k : list nat) : bool :=
  match ds, p, k with
  | d :: ds', a :: p', b :: k' => (b <=? a) && (a - b <? d) && reachable ds' p' k'
  | [], [], [] => true
  | _, _, _ => false
  end.

Lemma idx_add_in ds ks j k : in_range ds j -> in_range ks k -> in_range (conv_dims ds ks) (idx_add k j).
Proof.
  intros Hj; revert ks k; induction Hj as [|a d j ds Ha Hj IH]; intros ks k Hk; inversion Hk; subst; simpl;
    constructor; [lia|]; apply IH; auto.
Qed.

Lemma reachable_sub ds p k j :
  in_range ds j -> length k = length j ->
  idx_add k j = p -> j = idx_sub p k /\ reachable ds p k = true.
Proof.
  intros Hj; revert p k; induction Hj as [|a d j ds Ha Hj IH]; intros p k L E.
  - destruct k; simpl in *; [subst; auto | lia].
  - destruct k as [|b k]; simpl in *; [lia|]; subst p.
    destruct (IH (idx_add k j) k) as [E1 E2]; [lia | reflexivity|].
    cbn [idx_add idx_sub reachable]; split; [rewrite <- E1; f_equal; lia | rewrite E2; lia].
Qed.

Lemma reachable_spec ds p k : reachable ds p k = true ->
  in_range ds (idx_sub p k) /\ idx_add k (idx_sub p k) = p.
Proof.
  revert p k; induction ds as [|d ds IH]; intros [|a p] [|b k] H; simpl in *; try discriminate.
  - split; [constructor | reflexivity].
  - apply andb_true_iff in H; destruct H as [Hb Hr]; destruct (IH p k Hr) as [H1 H2]; split; [constructor; auto; lia | rewrite H2; f_equal; lia].
Qed.

Lemma in_range_snoc ds d idx i : in_range (ds ++ [d]) (idx ++ [i]) <-> in_range ds idx /\ i < d.
Proof.
  unfold in_range; split.
  - revert ds; induction idx as [|a idx IH]; intros [|b ds] H; simpl in H.
    + inversion H; subst; auto.
    + inversion H as [|? ? ? ? ? H']; subst; inversion H'; destruct ds; discriminate.
    + inversion H as [|? ? ? ? ? H']; subst; inversion H'; destruct idx; discriminate.
    + inversion H as [|? ? ? ? Ha H']; subst; apply IH in H'; destruct H'; split; auto.
  - intros [H Hi]; apply Forall2_app; auto.
Qed.

Lemma in_range_snoc_inv ds d idx : in_range (ds ++ [d]) idx -> exists idx' i, idx = idx' ++ [i].
Proof.
  intros H; apply in_range_length in H; rewrite app_length in H; simpl in H.
  destruct (exists_last (l := idx)) as (idx' & i & E); [intros ->; simpl in H; lia | eauto].
Qed.

Lemma firstn_S (ds : list nat) l : l < length ds -> firstn (S l) ds = firstn l ds ++ [nth l ds 0].
Proof.
  revert l; induction ds as [|d ds IH]; intros l H; simpl in H; [lia|].
  destruct l as [|l]; [reflexivity|]; cbn [nth]; change (firstn (S (S l)) (d :: ds)) with (d :: firstn (S l) ds).
  rewrite IH by lia; reflexivity.
Qed.

Lemma off_snoc ds idx i : length idx < length ds -> off ds (idx ++ [i]) = off ds idx + i * prodn (firstn (length idx) ds).
Proof.
  revert ds; induction idx as [|a idx IH]; intros [|d ds] H; simpl in *; try lia.
  - unfold prodn; destruct ds; simpl; lia.
  - rewrite IH by lia; unfold prodn; simpl; ring.
Qed.

Lemma idx_add_snoc k j i a : length k = length j -> idx_add (k ++ [i]) (j ++ [a]) = idx_add k j ++ [i + a].
Proof. revert j; induction k as [|x k IH]; intros [|y j] H; simpl in *; try lia; auto; rewrite IH by lia; auto. Qed.

Lemma idx_add_length k j : length k = length j -> length (idx_add k j) = length j.
Proof. revert j; induction k as [|x k IH]; intros [|y j] H; simpl in *; try lia; auto. Qed.

Lemma conv_dims_length ds ks : length ks = length ds -> length (conv_dims ds ks) = length ds.
Proof. revert ks; induction ds as [|d ds IH]; intros [|k ks] H; simpl in *; try lia; auto. Qed.

Lemma for_list_ext_inv {I S} (Inv : S -> Prop) (l : list I) (b1 b2 : I -> S -> res S) : forall s, Inv s ->
  (forall i s, In i l -> Inv s -> b1 i s = b2 i s) ->
  (forall i s s', In i l -> Inv s -> b2 i s = Ok s' -> Inv s') ->
  for_list l b1 s = for_list l b2 s.
Proof.
  induction l as [|i l IH]; intros s Hs H P; simpl; auto.
  rewrite H by (simpl; auto); destruct (b2 i s) as [s'| |] eqn:E; simpl; auto.
  apply IH; [eapply P; eauto; simpl; auto | intros; apply H; simpl; auto | intros; eapply P; eauto; simpl; auto].
Qed.

Lemma for_list_inv {I S} (Inv : S -> Prop) (l : list I) (b : I -> S -> res S) : forall s s', Inv s ->
  (forall i s s', In i l -> Inv s -> b i s = Ok s' -> Inv s') -> for_list l b s = Ok s' -> Inv s'.
Proof.
  induction l as [|i l IH]; intros s s' Hs P E; simpl in E; [congruence|].
  destruct (b i s) as [s1| |] eqn:E1; simpl in E; try discriminate.
  eapply IH; [|intros; eapply P; eauto; simpl; auto | exact E]; eapply P; eauto; simpl; auto.
Qed.

Section ConvN.
  Context {A : Type} (zero : A) (add : A -> A -> A) (f : A -> A -> A).

  (** the (kernel index, image index) pairs in the order of the recursion *)
  Fixpoint visits (kds ids : list nat) (level : nat) : list (list nat * list nat) :=
    match level with
    | O => map (fun ij => ([fst ij], [snd ij])) (grid (nth 0 kds 0) (nth 0 ids 0))
    | S l => map (fun p => (fst (snd p) ++ [fst (fst p)], snd (snd p) ++ [snd (fst p)]))
               (pairs (grid (nth level kds 0) (nth level ids 0)) (fun _ => visits kds ids l))
    end.

  Lemma visits_in kds ids level k j : level < length kds -> level < length ids ->
    In (k, j) (visits kds ids level) <->
    in_range (firstn (S level) kds) k /\ in_range (firstn (S level) ids) j.
  Proof.
    revert k j; induction level as [|l IH]; intros k j Hk Hi.
    - cbn [visits]; rewrite in_map_iff; rewrite !firstn_S by lia; cbn [firstn app]; split.
      + intros ([i a] & E & H); injection E as <- <-; apply in_grid in H; simpl in H.
        split; constructor; try lia; constructor.
      + intros [H1 H2]; inversion H1 as [|i ? ? ? Hi1 H1']; subst; inversion H1'; subst.
        inversion H2 as [|a ? ? ? Ha H2']; subst; inversion H2'; subst.
        exists (i, a); split; auto; apply in_grid; simpl; lia.
    - cbn [visits]; rewrite in_map_iff, !(firstn_S _ (S l)) by lia; split.
      + intros ([[i a] [k' j']] & E & H); injection E as <- <-.
        apply in_pairs in H; cbn [fst snd] in H; destruct H as [Hg Hv]; apply in_grid in Hg.
        apply IH in Hv; try lia; rewrite !in_range_snoc; cbn [fst snd] in *; tauto.
      + intros [H1 H2]; destruct (in_range_snoc_inv _ _ _ H1) as (k' & i & ->).
        destruct (in_range_snoc_inv _ _ _ H2) as (j' & a & ->).
        apply in_range_snoc in H1; apply in_range_snoc in H2.
        exists ((i, a), (k', j')); split; auto; apply in_pairs; split; [apply in_grid|apply IH]; cbn [fst snd]; try tauto; lia.
  Qed.

  Lemma visits_NoDup kds ids level : NoDup (visits kds ids level).
  Proof.
    induction level as [|l IH]; cbn [visits].
    - apply NoDup_map_inj; [|apply NoDup_grid]; intros [a b] [a' b'] _ _ E; simpl in E; congruence.
    - apply NoDup_map_inj; [|apply NoDup_pairs; auto; apply NoDup_grid].
      intros [[i a] [k j]] [[i' a'] [k' j']] _ _ E; cbn [fst snd] in E; injection E as E1 E2.
      apply app_inj_tail in E1; apply app_inj_tail in E2; destruct E1, E2; congruence.
  Qed.

  Definition acc (ods ids kds : list nat) (im kernel : image A) (oi i2 i3 : nat) (kj : list nat * list nat)
      (out : image A) : res (image A) :=
    let (k, j) := kj in
    let q := oi + off ods (idx_add k j) in
    let* o := get out q in
    let* a := get im (i2 + off ids j) in
    let* b := get kernel (i3 + off kds k) in
    set_index out q (add o (f a b)).

  Lemma set_index_dims o k v (o' : image A) : set_index o k v = Ok o' -> dims o' = dims o.
  Proof.
    unfold set_index; destruct (count o <=? k); [discriminate|].
    unfold vset; destruct (k <? length (pix o)); simpl; [|discriminate].
    intros E; injection E as <-; reflexivity.
  Qed.

  Lemma acc_dims ods ids kds im kernel oi i2 i3 kj out out' :
    acc ods ids kds im kernel oi i2 i3 kj out = Ok out' -> dims out' = dims out.
  Proof.
    destruct kj as [k j]; unfold acc; intros E.
    repeat match type of E with bind ?m _ = _ => destruct m; cbn [bind] in E; try discriminate end.
    eapply set_index_dims; eauto.
  Qed.

  Lemma detail_visits im kernel ids kds level : dims im = ids -> dims kernel = kds -> length kds = length ids ->
    level < length ids ->
    forall oi i2 i3 out, dims out = conv_dims ids kds ->
    convolution_detail add f level im kernel oi i2 i3 out =
    for_list (visits kds ids level) (acc (conv_dims ids kds) ids kds im kernel oi i2 i3) out.
  Proof.
    intros Di Dk EL; set (ods := conv_dims ids kds).
    assert (Lo : length ods = length ids) by (apply conv_dims_length; auto).
    assert (St : forall (o : image A) l, dims o = ods -> l < length ids ->
              get_stride o l = Ok (prodn (firstn l ods)) /\ get_stride im l = Ok (prodn (firstn l ids)) /\
              get_stride kernel l = Ok (prodn (firstn l kds))).
    { intros o l Do Hl; rewrite !get_stride_spec by (rewrite ?Do, ?Di, ?Dk; lia).
      rewrite Do, Di, Dk; auto. }
    assert (Vg : forall (ds : list nat) l, l < length ds -> vget ds l = Ok (nth l ds 0)).
    { intros ds l H; apply vget_ok, nth_error_nth'; exact H. }
    induction level as [|l IH]; intros HL oi i2 i3 out Do.
    - cbn [convolution_detail visits]; rewrite Di, Dk, !Vg by lia; cbn [bind].
      rewrite for_range_nested, for_list_map.
      apply (for_list_ext_inv (fun o => dims o = ods)); auto.
      + intros [i j] s _ Ds; destruct (St s 0 Ds HL) as (-> & -> & ->); cbn [bind fst snd acc].
        destruct ids as [|d0 ids']; [simpl in HL; lia|]; destruct kds as [|k0 kds']; [simpl in EL; lia|].
        unfold ods; cbn [conv_dims idx_add off firstn prodn fold_right].
        replace (off (conv_dims ids' kds') []) with 0 by (destruct (conv_dims ids' kds'); reflexivity).
        replace (off ids' []) with 0 by (destruct ids'; reflexivity).
        replace (off kds' []) with 0 by (destruct kds'; reflexivity).
        rewrite !Nat.mul_0_r, !Nat.add_0_r, !Nat.mul_1_r; reflexivity.
      + intros kj s s' _ Ds E; apply acc_dims in E; congruence.
    - cbn [convolution_detail visits]; rewrite Di, Dk, !Vg by lia; cbn [bind].
      rewrite for_range_nested, for_list_map.
      rewrite <- (for_list_nested (grid (nth (S l) kds 0) (nth (S l) ids 0)) (fun _ => visits kds ids l)
        (fun ij kj => acc ods ids kds im kernel oi i2 i3 (fst kj ++ [fst ij], snd kj ++ [snd ij]))).
      apply (for_list_ext_inv (fun o => dims o = ods)); auto.
      + intros [i j] s _ Ds; destruct (St s (S l) Ds HL) as (-> & -> & ->); cbn [bind fst snd].
        rewrite IH by (auto; lia); apply for_list_ext; intros [k' j'] s0 Hv.
        apply visits_in in Hv; try lia; destruct Hv as [Hk Hj].
        apply in_range_length in Hk, Hj; rewrite firstn_length in Hk, Hj.
        unfold acc; cbn [fst snd].
        rewrite idx_add_snoc by lia.
        rewrite !off_snoc by (rewrite ?idx_add_length; lia).
        rewrite idx_add_length by lia.
        replace (length j') with (S l) by lia; replace (length k') with (S l) by lia.
        rewrite (Nat.add_assoc oi), (Nat.add_assoc i2), (Nat.add_assoc i3).
        rewrite (Nat.add_comm (oi + _) (_ * _)), (Nat.add_assoc _ oi), (Nat.add_comm (_ * _) oi).
        rewrite (Nat.add_comm (i2 + _) (_ * _)), (Nat.add_assoc _ i2), (Nat.add_comm (_ * _) i2).
        rewrite (Nat.add_comm (i3 + _) (_ * _)), (Nat.add_assoc _ i3), (Nat.add_comm (_ * _) i3).
        reflexivity.
      + intros ij s s' _ Ds E.
        eapply (for_list_inv (fun o => dims o = ods)); [exact Ds | | exact E].
        intros kj s1 s2 _ D1 E1; apply acc_dims in E1; congruence.
  Qed.

  Lemma acc_loop ods ids kds im kernel fi fk L :
    ReprN im ids fi -> ReprN kernel kds fk ->
    (forall k j, In (k, j) L -> in_range kds k /\ in_range ids j /\ in_range ods (idx_add k j)) ->
    forall out F, ReprN out ods F ->
    exists o, for_list L (acc ods ids kds im kernel 0 0 0) out = Ok o /\
      ReprN o ods (fun p => fold_left (fun s kj => if list_eq_dec Nat.eq_dec (idx_add (fst kj) (snd kj)) p
                                                  then add s (f (fi (snd kj)) (fk (fst kj))) else s) L (F p)).
  Proof.
    intros Ri Rk; induction L as [|[k j] L IH]; intros HL out F R.
    - exists out; split; auto.
    - destruct (HL k j) as (Hk & Hj & Ho); [simpl; auto|].
      cbn [for_list acc]; unfold get; rewrite !Nat.add_0_l.
      rewrite (vget_ReprN _ _ _ _ R Ho); cbn [bind].
      rewrite (vget_ReprN _ _ _ _ Ri Hj); cbn [bind].
      rewrite (vget_ReprN _ _ _ _ Rk Hk); cbn [bind].
      pose proof (off_lt _ _ Ho) as Hlt.
      rewrite set_index_upd by (rewrite ?(ReprN_dims _ _ _ R), ?(ReprN_length _ _ _ R); auto); cbn [bind].
      destruct (IH (fun k j H => HL k j (or_intror H)) (im_upd out (off ods (idx_add k j)) (add (F (idx_add k j)) (f (fi j) (fk k))))
                  (fun p => if list_eq_dec Nat.eq_dec (idx_add k j) p then add (F p) (f (fi j) (fk k)) else F p))
        as (o & E & Ro).
      { destruct R as (D & Ln & H); split; [exact D|]; split; [cbn; rewrite list_upd_length; exact Ln|].
        intros p Hp; cbn [im_upd pix]; destruct (list_eq_dec Nat.eq_dec (idx_add k j) p) as [<-|N].
        - apply list_upd_same; lia.
        - rewrite list_upd_other; [apply H, Hp|]; intros E; apply N; symmetry; eapply off_inj; eauto. }
      exists o; split; auto.
  Qed.

  Hypothesis zero_r : forall a, add a zero = a.
  Hypothesis comm : forall a b, add a b = add b a.
  Hypothesis assoc : forall a b c, add a (add b c) = add (add a b) c.

  Lemma conv_sumN kds ids fi fk p : length kds = length ids -> 0 < length ids ->
    fold_left (fun s kj => if list_eq_dec Nat.eq_dec (idx_add (fst kj) (snd kj)) p
                           then add s (f (fi (snd kj)) (fk (fst kj))) else s)
      (visits kds ids (length ids - 1)) zero =
    bsum zero add (fun k => if reachable ids p k then f (fi (idx_sub p k)) (fk k) else zero) (all_idx kds).
  Proof.
    intros EL HL.
    set (t := fun kj : list nat * list nat => if list_eq_dec Nat.eq_dec (idx_add (fst kj) (snd kj)) p
                           then f (fi (snd kj)) (fk (fst kj)) else zero).
    transitivity (bsum zero add t (visits kds ids (length ids - 1))).
    { unfold bsum; apply fold_left_ext; intros kj s _; unfold t.
      destruct (list_eq_dec _ _ _); auto. }
    transitivity (bsum zero add t (pairs (all_idx kds) (fun _ => all_idx ids))).
    { apply bsum_perm; auto; apply NoDup_Permutation.
      - apply visits_NoDup.
      - apply NoDup_pairs; intros; apply NoDup_all_idx.
      - intros [k j]; rewrite visits_in by lia.
        replace (S (length ids - 1)) with (length ids) by lia.
        rewrite <- EL at 1; rewrite !firstn_all, in_pairs, !in_all_idx; reflexivity. }
    rewrite bsum_pairs by auto; apply bsum_ext; intros k Hk; apply in_all_idx in Hk; unfold t; cbn [fst snd].
    pose proof (in_range_length _ _ Hk) as Lk.
    destruct (reachable ids p k) eqn:E.
    - destruct (reachable_spec _ _ _ E) as [Hs Es].
      rewrite (bsum_single zero add zero_r comm assoc _ (all_idx ids) (idx_sub p k)).
      + rewrite Es; destruct (list_eq_dec Nat.eq_dec p p); congruence.
      + apply NoDup_all_idx.
      + apply in_all_idx, Hs.
      + intros j Hj Nj; apply in_all_idx in Hj; destruct (list_eq_dec Nat.eq_dec (idx_add k j) p) as [Ep|]; auto.
        exfalso; apply Nj; apply (reachable_sub ids p k j Hj); auto.
        rewrite Lk, EL; symmetry; apply in_range_length, Hj.
    - apply bsum_zero; auto; intros j Hj; apply in_all_idx in Hj.
      destruct (list_eq_dec Nat.eq_dec (idx_add k j) p) as [Ep|]; auto.
      exfalso; destruct (reachable_sub ids p k j Hj) as [_ C]; auto; [|congruence].
      rewrite Lk, EL; symmetry; apply in_range_length, Hj.
  Qed.

  Lemma conv_dims_usub ids kds : length kds = length ids ->
    Forall2 (fun d k => 0 < d + k /\ fits (d + k)) ids kds ->
    map (fun lr => usub (fst lr + snd lr) 1) (combine ids kds) = conv_dims ids kds.
  Proof.
    intros _ H; induction H as [|d k ids kds [H1 H2] H IH]; simpl; auto.
    rewrite IH, usub_le by (auto; lia); reflexivity.
  Qed.

  Lemma convolution_ReprN im kernel ids kds fi fk :
    ReprN im ids fi -> ReprN kernel kds fk -> length kds = length ids -> ids <> [] ->
    Forall2 (fun d k => 0 < d + k /\ fits (d + k)) ids kds -> fits (length ids) ->
    exists o, convolution zero add f im kernel false = Ok o /\
      ReprN o (conv_dims ids kds)
        (fun p => bsum zero add (fun k => if reachable ids p k then f (fi (idx_sub p k)) (fk k) else zero) (all_idx kds)).
  Proof.
    intros Ri Rk EL NE HF FL; unfold convolution.
    rewrite (ReprN_dims _ _ _ Ri), (ReprN_dims _ _ _ Rk), conv_dims_usub by auto.
    assert (HL : 0 < length ids) by (destruct ids; simpl; [congruence | lia]).
    assert (Lo : length (conv_dims ids kds) = length ids) by (apply conv_dims_length; auto).
    unfold image_sizes_range; destruct (conv_dims ids kds) as [|d0 ds0] eqn:Eo; [simpl in Lo; lia|].
    rewrite <- Eo in *; cbn [bind].
    rewrite usub_le by (auto; lia).
    pose proof (ReprN_sizes zero (conv_dims ids kds)) as R0; unfold image_sizes in R0.
    rewrite (detail_visits im kernel ids kds (length ids - 1)); auto;
      [|apply (ReprN_dims _ _ _ Ri) | apply (ReprN_dims _ _ _ Rk) | lia].
    destruct (acc_loop (conv_dims ids kds) ids kds im kernel fi fk (visits kds ids (length ids - 1)) Ri Rk) with
      (out := mkImage (conv_dims ids kds) (repeat zero (prodn (conv_dims ids kds)))) (F := fun _ : list nat => zero)
      as (o & E & R); auto.
    { intros k j H; apply visits_in in H; try lia; replace (S (length ids - 1)) with (length ids) in H by lia.
      rewrite <- EL in H at 1; rewrite !firstn_all in H; destruct H; repeat split; auto; apply idx_add_in; auto. }
    rewrite E; cbn [bind]; exists o; split; auto.
    refine (ReprN_ext _ _ _ _ R _); intros p _; cbv beta; apply conv_sumN; auto.
  Qed.

  (** with is_size_same the call returns the input image itself *)
  Lemma convolution_same_ReprN im kernel ids kds fi fk :
    ReprN im ids fi -> ReprN kernel kds fk -> length kds = length ids -> ids <> [] ->
    Forall2 (fun d k => 0 < d /\ 0 < d + k /\ fits (d + k)) ids kds -> fits (length ids) ->
    Forall (fun n => (Z.of_nat n <= 2 ^ 62)%Z) ids ->
    convolution zero add f im kernel true = Ok im.
  Proof.
    intros Ri Rk EL NE HF FL FB.
    destruct (convolution_ReprN im kernel ids kds fi fk) as (o & E & _); auto.
    { clear - HF; induction HF; constructor; tauto || auto. }
    unfold convolution in *.
    match type of E with (let* x := ?m in _) = _ => destruct m; cbn [bind] in *; try discriminate end.
    match type of E with (let* x := ?m in _) = _ => destruct m; cbn [bind] in *; try discriminate end.
    rewrite (ReprN_dims _ _ _ Ri); unfold get_center_location; rewrite (ReprN_dims _ _ _ Ri).
    assert (PP : 0 < prodn ids).
    { clear - HF; unfold prodn; induction HF as [|d k ids kds (H & _) HF IH]; simpl; [lia | nia]. }
    destruct (subimage_ReprN zero im ids fi ids (map (fun n => n / 2) ids) zero Ri) as (o' & E' & R'); auto.
    - apply map_length.
    - split.
      + eapply Forall_impl; [|exact FB]; intros n Hn; cbv beta in *; lia.
      + clear - FB; induction FB as [|n ids Hn FB IH]; cbn [map]; constructor; auto.
        assert (n / 2 <= n) by (apply Nat.div_le_upper_bound; lia); unfold fits, two64; lia.
    - rewrite E'; f_equal; eapply ReprN_unique; eauto.
      intros p Hp; cbv beta.
      assert (Q : crop_poss (map (fun n => n / 2) ids) ids p = map Z.of_nat p).
      { clear - Hp; induction Hp as [|a d p ids Ha Hp IH]; cbn [map crop_poss]; auto.
        rewrite IH; f_equal; unfold crop_pos; lia. }
      rewrite Q; replace (map Z.to_nat (map Z.of_nat p)) with p
        by (rewrite map_map; transitivity (map (fun x : nat => x) p); [symmetry; apply map_id | apply map_ext; intros; lia]).
      replace (insideb (map Z.of_nat p) ids) with true; auto; symmetry; apply inside_b.
      + rewrite map_length; apply in_range_length, Hp.
      + clear - Hp; induction Hp; cbn [map]; constructor; auto; lia.
  Qed.
End ConvN.
