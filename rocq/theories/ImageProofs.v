(** ImageProofs.v - proofs about the image class. *)
From Verif Require Import Base ImageModel ImageFacts IndexModel.
From Coq Require Import ZifyBool ZifyNat.

(** ** strides *)
Lemma prodn_app l1 l2 : prodn (l1 ++ l2) = prodn l1 * prodn l2.
Proof. unfold prodn; induction l1 as [|a l1 IH]; simpl; [lia|]; rewrite IH; lia. Qed.

Lemma firstn_S_snoc {A} (l : list A) k v :
  nth_error l k = Some v -> firstn (S k) l = firstn k l ++ [v].
Proof.
  revert k; induction l as [|a l IH]; intros [|k] H; simpl in *; try discriminate.
  - injection H as ->; reflexivity.
  - f_equal; apply IH, H.
Qed.

Lemma get_stride_spec {A} (im : image A) k :
  k <= length (dims im) -> get_stride im k = Ok (prodn (firstn k (dims im))).
Proof.
  intros Hk; unfold get_stride; destruct (Nat.eqb_spec k 0) as [->|Nk]; [reflexivity|].
  destruct (for_range_inv k (fun i o => o = prodn (firstn i (dims im)))
              (fun i output => let* s := vget (dims im) i in Ok (output * s)) 1) as (r & E & Hr).
  - reflexivity.
  - intros i o Hi ->; destruct (vget_lt (dims im) i) as (v & Ev & Nv); [lia|].
    rewrite Ev; cbn [bind]; eexists; split; [reflexivity|].
    cbv beta; rewrite (firstn_S_snoc _ _ _ Nv), prodn_app; unfold prodn; simpl; lia.
  - rewrite E, Hr; reflexivity.
Qed.

(** sum of index times stride *)
Fixpoint dot (l1 l2 : list nat) : nat :=
  match l1, l2 with a :: l1', b :: l2' => a * b + dot l1' l2' | _, _ => 0 end.

Lemma dot_scale d l s : dot l (map (fun t => d * t) s) = d * dot l s.
Proof. revert s; induction l as [|a l IH]; intros [|b s]; simpl; try lia; rewrite IH; lia. Qed.

Lemma off_dot ds idx :
  length idx = length ds ->
  off ds idx = dot idx (map (fun k => prodn (firstn k ds)) (seq 0 (length ds))).
Proof.
  revert idx; induction ds as [|d ds IH]; intros [|i idx] H; simpl in *; try lia.
  rewrite IH by lia.
  rewrite <- seq_shift, map_map; simpl.
  rewrite <- dot_scale, map_map; unfold prodn; simpl; lia.
Qed.

(** ** C01 *)
Lemma at_addresses_bijectively {A} (im : image A) :
  wf im ->
  (forall idx, in_range (dims im) idx ->
     exists k, loc_checked im idx = Ok k /\ k < length (pix im) /\
               k = dot idx (map (fun j => prodn (firstn j (dims im))) (seq 0 (length (dims im))))) /\
  (forall i j k, in_range (dims im) i -> in_range (dims im) j ->
     loc_checked im i = Ok k -> loc_checked im j = Ok k -> i = j) /\
  (forall k, k < length (pix im) -> exists idx, in_range (dims im) idx /\ loc_checked im idx = Ok k).
Proof.
  intros W; repeat split.
  - intros idx HI; exists (off (dims im) idx); split; [apply loc_checked_in, HI|]; split.
    + rewrite W; apply off_lt, HI.
    + apply off_dot, in_range_length, HI.
  - intros i j k Hi Hj Ei Ej; rewrite loc_checked_in in Ei, Ej by assumption.
    apply (off_inj (dims im)); auto; congruence.
  - intros k Hk; rewrite W in Hk; destruct (unoff_spec _ _ Hk) as [IR E].
    exists (unoff (dims im) k); split; auto; rewrite loc_checked_in by exact IR; congruence.
Qed.

(** ** C02 *)
Lemma at_total {A} (im : image A) idx :
  wf im ->
  (in_range (dims im) idx -> exists v, at_ im idx = Ok v /\ lookup im idx = Some v) /\
  (length idx <> length (dims im) -> at_ im idx = Throw RuntimeError) /\
  (length idx = length (dims im) -> ~ in_range (dims im) idx -> at_ im idx = Throw OutOfRange).
Proof.
  intros W; repeat split; unfold at_.
  - intros HI; rewrite loc_checked_in by exact HI; simpl.
    apply vget_lt; rewrite W; apply off_lt, HI.
  - intros H; rewrite loc_checked_arity by exact H; reflexivity.
  - intros HL H; rewrite loc_checked_out by assumption; reflexivity.
Qed.

Lemma at_set_total {A} (im : image A) idx v :
  wf im ->
  (in_range (dims im) idx ->
     exists im', at_set im idx v = Ok im' /\ dims im' = dims im /\ wf im' /\ lookup im' idx = Some v /\
       forall j, in_range (dims im) j -> j <> idx -> lookup im' j = lookup im j) /\
  (length idx <> length (dims im) -> at_set im idx v = Throw RuntimeError) /\
  (length idx = length (dims im) -> ~ in_range (dims im) idx -> at_set im idx v = Throw OutOfRange).
Proof.
  intros W; repeat split.
  - intros HI; exists (im_upd im (off (dims im) idx) v); split; [apply at_set_ok; auto|].
    unfold lookup, wf, im_upd; simpl; rewrite list_upd_length; repeat split; auto.
    + apply list_upd_same; rewrite W; apply off_lt, HI.
    + intros j Hj Nj; apply list_upd_other; intros E; apply Nj; eapply off_inj; eauto.
  - intros H; unfold at_set; rewrite loc_checked_arity by exact H; reflexivity.
  - intros HL H; unfold at_set; rewrite loc_checked_out by assumption; reflexivity.
Qed.

(** ** the range overload of at: no dimensionality check *)
Lemma at_range_same_arity {A} (im : image A) idx :
  length idx = length (dims im) -> at_range im idx = at_ im idx.
Proof.
  intros HL; unfold at_range, at_, loc_checked, check_boundary, loc_unchecked.
  rewrite HL, Nat.eqb_refl; simpl; destruct (check_bounds_loop (dims im) idx); reflexivity.
Qed.

(** ** C03: write histories *)
Inductive wop (A : Type) : Type :=
| WAt (idx : list nat) (v : A)        (* image.at(idx...) = v *)
| WSet (loc : list nat) (v : A)       (* image.set(tuple, v), silently ignored outside *)
| WIdx (k : nat) (v : A)              (* image.set(k) = v, linear index *)
| WAll (v : A).                       (* image.setAllValue(v) *)
Arguments WAt {A}. Arguments WSet {A}. Arguments WIdx {A}. Arguments WAll {A}.

Definition wstep {A} (o : wop A) (im : image A) : res (image A) :=
  match o with
  | WAt idx v => at_set im idx v
  | WSet loc v => let* r := set_tuple im loc v in Ok (snd r)
  | WIdx k v => set_index im k v
  | WAll v => Ok (set_all_value im v)
  end.

(** operations that do not throw *)
Definition wop_ok {A} (ds : list nat) (o : wop A) : Prop :=
  match o with
  | WAt idx _ => in_range ds idx
  | WSet loc _ => length loc = length ds
  | WIdx k _ => k < prodn ds
  | WAll _ => True
  end.

(** does the operation write pixel [idx], and with which value *)
Definition hits {A} (ds : list nat) (o : wop A) (idx : list nat) : option A :=
  match o with
  | WAt i v => if list_eq_dec Nat.eq_dec i idx then Some v else None
  | WSet i v => if list_eq_dec Nat.eq_dec i idx then Some v else None
  | WIdx k v => if k =? off ds idx then Some v else None
  | WAll v => Some v
  end.

(** value of the last operation that writes [idx], else the initial value *)
Fixpoint last_write {A} (ds : list nat) (ops : list (wop A)) (idx : list nat) (init : option A) : option A :=
  match ops with
  | [] => init
  | o :: ops' => last_write ds ops' idx (match hits ds o idx with Some v => Some v | None => init end)
  end.

Lemma wstep_spec {A} (im : image A) o :
  wf im -> wop_ok (dims im) o ->
  exists im', wstep o im = Ok im' /\ dims im' = dims im /\ wf im' /\
    forall idx, in_range (dims im) idx ->
      lookup im' idx = match hits (dims im) o idx with Some v => Some v | None => lookup im idx end.
Proof.
  intros W HO; destruct o as [i v|i v|k v|v]; simpl in *.
  - destruct (at_set_total im i v W) as [H _]; destruct (H HO) as (im' & E & D & W' & L & F).
    exists im'; repeat split; auto; intros idx HI.
    destruct (list_eq_dec Nat.eq_dec i idx) as [->|N]; auto.
  - unfold set_tuple, check_boundary_tuple; rewrite HO, Nat.eqb_refl; simpl.
    destruct (in_range_dec (dims im) i) as [HI|HN].
    + rewrite check_tuple_in by exact HI; simpl.
      rewrite calculate_index_off by lia; simpl.
      rewrite vset_ok by (rewrite W; apply off_lt, HI); simpl.
      eexists; split; [reflexivity|]; unfold wf, lookup; simpl; rewrite list_upd_length; repeat split; auto.
      intros idx Hx; destruct (list_eq_dec Nat.eq_dec i idx) as [->|N].
      * apply list_upd_same; rewrite W; apply off_lt, HI.
      * apply list_upd_other; intros E; apply N; eapply off_inj; eauto.
    + rewrite check_tuple_out by auto; simpl; exists im; repeat split; auto.
      intros idx Hx; destruct (list_eq_dec Nat.eq_dec i idx) as [->|N]; tauto.
  - unfold set_index, count; destruct (Nat.leb_spec (prodn (dims im)) k); [lia|].
    rewrite vset_ok by (rewrite W; lia); simpl.
    eexists; split; [reflexivity|]; unfold wf, lookup; simpl; rewrite list_upd_length; repeat split; auto.
    intros idx Hx; destruct (Nat.eqb_spec k (off (dims im) idx)) as [->|N].
    + apply list_upd_same; rewrite W; apply off_lt, Hx.
    + apply list_upd_other; auto.
  - exists (set_all_value im v); split; [reflexivity|]; unfold wf, lookup, set_all_value; simpl.
    rewrite map_length; repeat split; auto; intros idx Hx.
    destruct (nth_error_lt (pix im) (off (dims im) idx)) as (u & E); [rewrite W; apply off_lt, Hx|].
    rewrite (nth_error_map_some (fun _ => v) _ _ _ E); reflexivity.
Qed.

Lemma write_history {A} (ops : list (wop A)) (im : image A) :
  wf im -> Forall (wop_ok (dims im)) ops ->
  exists im', for_list ops wstep im = Ok im' /\ dims im' = dims im /\ wf im' /\
    forall idx, in_range (dims im) idx ->
      lookup im' idx = last_write (dims im) ops idx (lookup im idx).
Proof.
  revert im; induction ops as [|o ops IH]; intros im W HF; simpl.
  - exists im; auto.
  - inversion HF as [|? ? Ho HF']; subst.
    destruct (wstep_spec im o W Ho) as (im1 & E1 & D1 & W1 & L1); rewrite E1; simpl.
    destruct (IH im1 W1) as (im2 & E2 & D2 & W2 & L2); [rewrite D1; exact HF'|].
    exists im2; repeat split; auto; [congruence|].
    intros idx HI; rewrite L2 by (rewrite D1; exact HI); rewrite D1, L1 by exact HI; reflexivity.
Qed.

(** ** C04: constructors *)
Lemma ctor_wf {A} (d : A) sizes :
  wf (image_sizes d sizes) /\
  (forall idx, in_range sizes idx -> lookup (image_sizes d sizes) idx = Some d).
Proof.
  destruct (ReprN_sizes d sizes) as (D & L & H); split.
  - exact L.
  - intros idx HI; apply H, HI.
Qed.

Lemma ctor_data_wf {A} (input : list A) sizes :
  (input <> [] -> length input = prodn sizes ->
     exists im, image_data input sizes = Ok im /\ dims im = sizes /\ pix im = input /\ wf im) /\
  ((input = [] \/ length input <> prodn sizes) -> image_data input sizes = Throw RuntimeError).
Proof.
  unfold image_data; split.
  - intros NE E; destruct input as [|a input]; [congruence|].
    rewrite E, Nat.eqb_refl; simpl; eexists; split; [reflexivity|]; unfold wf; simpl; auto.
  - intros [->|N]; [reflexivity|]; destruct input as [|a input]; [reflexivity|].
    destruct (Nat.eqb_spec (length (a :: input)) (prodn sizes)); [lia | reflexivity].
Qed.

Lemma ctor_rows_wf {A} (rows : list (list A)) w :
  rows <> [] -> Forall (fun r => length r = w) rows ->
  exists im, image_rows rows = Ok im /\ dims im = [w; length rows] /\ wf im /\
    forall x y row v, nth_error rows y = Some row -> nth_error row x = Some v -> lookup im [x; y] = Some v.
Proof.
  intros NE HF; unfold image_rows; destruct rows as [|r0 rows]; [congruence|].
  assert (E0 : length r0 = w) by (inversion HF; auto).
  eexists; split; [reflexivity|]; simpl dims; rewrite E0; split; [reflexivity|].
  assert (LC : forall l : list (list A), Forall (fun r => length r = w) l -> length (concat l) = w * length l).
  { induction l as [|r l IH]; intros H; simpl; [lia|].
    inversion H; subst; rewrite app_length, IH by assumption; lia. }
  split.
  - unfold wf; cbn [dims pix]; rewrite prodn2, LC by exact HF; reflexivity.
  - intros x y row v Hy Hx; unfold lookup; cbn [dims pix]; rewrite off2.
    clear NE E0; revert y Hy; induction (r0 :: rows) as [|r l IH]; intros y Hy; [destruct y; discriminate|].
    inversion HF as [|? ? Hr HF']; subst; destruct y as [|y]; simpl in Hy.
    + injection Hy as ->; simpl; rewrite nth_error_app1; auto.
      apply nth_error_Some; congruence.
    + simpl; rewrite nth_error_app2 by nia.
      replace (length r + y * length r + x - length r) with (y * length r + x) by nia.
      apply IH; auto.
Qed.

Lemma op_assign_wf {A} (f : A -> A -> A) (a b c : image A) :
  wf a -> op_assign f a b = Ok c -> dims c = dims a /\ wf c.
Proof.
  unfold op_assign, wf; destruct (size_eqb (dims b) (dims a)) eqn:E; [|discriminate].
  intros W; destruct (transform2 f (pix a) (pix b)) as [p| |] eqn:T; simpl; try discriminate.
  intros H; injection H as <-; simpl; split; auto; rewrite <- W.
  clear W E; revert p T; generalize (pix b); induction (pix a) as [|u l IH]; intros l2 p T; simpl in *.
  - injection T as <-; reflexivity.
  - destruct l2 as [|v l2]; [discriminate|].
    destruct (transform2 f l l2) as [q| |] eqn:E; simpl in T; try discriminate.
    injection T as <-; simpl; f_equal; eapply IH; eauto.
Qed.

Lemma cast_wf {A B} (f : A -> B) (im : image A) :
  wf im -> pix im <> [] ->
  exists im', cast f im = Ok im' /\ dims im' = dims im /\ wf im' /\
    forall idx, in_range (dims im) idx -> lookup im' idx = option_map f (lookup im idx).
Proof.
  intros W NE; unfold cast.
  destruct (ctor_data_wf (map f (pix im)) (dims im)) as [H _].
  destruct H as (im' & E & D & P & W').
  - destruct (pix im); [congruence | discriminate].
  - rewrite map_length; exact W.
  - exists im'; repeat split; auto; intros idx HI; unfold lookup; rewrite D, P; apply nth_error_map.
Qed.

(** ** C05 *)
Lemma lin2idx_loop_spec ds k st :
  0 < st -> Forall (fun d => 0 < d) ds ->
  lin2idx_loop k st ds = Ok (unoff ds (k / st)).
Proof.
  revert st; induction ds as [|d ds IH]; intros st Hst HF; simpl; auto.
  inversion HF as [|? ? Hd HF']; subst; unfold udiv, umod.
  destruct (Nat.eqb_spec st 0); [lia|]; simpl.
  destruct (Nat.eqb_spec d 0); [lia|]; simpl.
  rewrite IH by (auto; nia); simpl; rewrite Nat.div_div by lia; reflexivity.
Qed.

Lemma prodn_pos ds k : k < prodn ds -> Forall (fun d => 0 < d) ds.
Proof.
  revert k; induction ds as [|d ds IH]; intros k H; constructor; unfold prodn in *; simpl in *.
  - nia.
  - apply (IH 0); unfold prodn; nia.
Qed.

Lemma linear_index_round_trip ds k :
  k < prodn ds ->
  exists idx, linear_index_to_indices k ds = Ok idx /\ in_range ds idx /\
              calculate_index ds idx = Ok k.
Proof.
  intros H; destruct (unoff_spec ds k H) as [IR E].
  exists (unoff ds k); repeat split; auto.
  - unfold linear_index_to_indices; rewrite lin2idx_loop_spec by (eauto using prodn_pos).
    rewrite Nat.div_1_r; reflexivity.
  - rewrite calculate_index_off by (rewrite (in_range_length _ _ IR); lia); congruence.
Qed.

Lemma indices_linear_round_trip ds idx :
  in_range ds idx ->
  exists k, calculate_index ds idx = Ok k /\ k < prodn ds /\ linear_index_to_indices k ds = Ok idx.
Proof.
  intros H; pose proof (off_lt _ _ H) as HL; exists (off ds idx); repeat split; auto.
  - apply calculate_index_off; rewrite (in_range_length _ _ H); lia.
  - unfold linear_index_to_indices; rewrite lin2idx_loop_spec by (eauto using prodn_pos).
    rewrite Nat.div_1_r, off_unoff by exact H; reflexivity.
Qed.

Lemma prodn_firstn_pos ds i : Forall (fun d => 0 < d) ds -> 0 < prodn (firstn i ds).
Proof.
  intros HF; revert i; induction HF as [|a l Ha HF IH]; intros [|i]; unfold prodn in *; simpl; try lia.
  specialize (IH i); nia.
Qed.

Lemma nth_unoff ds k i d :
  Forall (fun d => 0 < d) ds -> nth_error ds i = Some d ->
  nth_error (unoff ds k) i = Some ((k / prodn (firstn i ds)) mod d).
Proof.
  revert k i; induction ds as [|e ds IH]; intros k [|i] HF H; try discriminate.
  - injection H as ->; cbn [unoff nth_error firstn].
    change (prodn []) with 1; rewrite Nat.div_1_r; reflexivity.
  - inversion HF as [|? ? He HF']; subst; cbn [unoff nth_error firstn] in *; rewrite IH by assumption.
    change (prodn (e :: firstn i ds)) with (e * prodn (firstn i ds)).
    pose proof (prodn_firstn_pos ds i HF').
    rewrite Nat.div_div by lia; reflexivity.
Qed.

Lemma linear_index_strides_agree {A} (im : image A) strides k :
  k < prodn (dims im) ->
  mapM (get_stride im) (seq 0 (length (dims im))) = Ok strides ->
  linear_index_to_indices_strides k strides (dims im) = linear_index_to_indices k (dims im).
Proof.
  intros Hk HS.
  assert (ES : strides = map (fun j => prodn (firstn j (dims im))) (seq 0 (length (dims im)))).
  { rewrite (mapM_ok _ (fun j => prodn (firstn j (dims im)))) in HS; [congruence|].
    intros j Hj; apply get_stride_spec; apply in_seq in Hj; lia. }
  pose proof (prodn_pos _ _ Hk) as HF.
  unfold linear_index_to_indices; rewrite lin2idx_loop_spec by auto.
  rewrite Nat.div_1_r; unfold linear_index_to_indices_strides.
  rewrite (mapM_ok _ (fun j => nth j (unoff (dims im) k) 0)).
  - f_equal; apply nth_error_ext_len.
    + rewrite map_length, seq_length; clear; revert k; induction (dims im); intros; simpl; auto.
    + intros j Hj; rewrite map_length, seq_length in Hj.
      rewrite (nth_error_map_some _ _ _ j) by (apply nth_error_seq; lia).
      destruct (nth_error_lt (dims im) j Hj) as (d & Hd).
      rewrite (nth_unoff _ _ _ _ HF Hd); f_equal; erewrite nth_error_nth; [reflexivity|].
      apply (nth_unoff _ _ _ _ HF Hd).
  - intros j Hj; apply in_seq in Hj; simpl in Hj.
    destruct (nth_error_lt (dims im) j) as (d & Hd); [lia|].
    subst strides; erewrite (vget_ok _ j); [|apply nth_error_map_some, nth_error_seq; lia].
    simpl; unfold udiv.
    assert (P : prodn (firstn j (dims im)) <> 0).
    { pose proof (firstn_skipn j (dims im)) as E.
      intros Z; rewrite <- E, prodn_app, Z in Hk; lia. }
    destruct (Nat.eqb_spec (prodn (firstn j (dims im))) 0); [lia|]; simpl.
    rewrite (vget_ok _ _ _ Hd); simpl; unfold umod.
    assert (d <> 0) by (rewrite Forall_forall in HF; apply nth_error_In in Hd; apply HF in Hd; lia).
    destruct (Nat.eqb_spec d 0); [lia|].
    f_equal; symmetry; erewrite nth_error_nth; [reflexivity|]; apply (nth_unoff _ _ _ _ HF Hd).
Qed.

(** ** C06 *)
Lemma piter_run_spec {A} (data : list A) w h f :
  0 < w -> length data = w * h ->
  (forall x y, x < w -> y < h -> nth_error data (y * w + x) = Some (f x y)) ->
  forall n x y fuel, x < w -> (y * w + x) + n = w * h -> (h <= y -> x = 0 /\ y = h) -> n < fuel ->
  piter_run fuel data w (mkPiter (y * w + x) x y) (mkPiter (w * h) 0 h) =
  Some (Ok (map (fun k => (f (k mod w) (k / w), k mod w, k / w)) (seq (y * w + x) n))).
Proof.
  intros Hw HL Hd; induction n as [|n IH]; intros x y fuel Hx Hn Hy Hf; (destruct fuel as [|fuel]; [lia|]); simpl.
  - assert (Ey : y = h /\ x = 0) by nia; destruct Ey as [-> ->].
    unfold piter_eqb; simpl; replace (h * w + 0 =? w * h) with true by (symmetry; apply Nat.eqb_eq; lia).
    rewrite Nat.eqb_refl; reflexivity.
  - assert (Hyh : y < h) by nia.
    unfold piter_eqb; simpl.
    replace (y * w + x =? w * h) with false by (symmetry; apply Nat.eqb_neq; nia); simpl.
    rewrite Hd by assumption.
    unfold piter_next; simpl.
    assert (Em : (y * w + x) mod w = x) by (rewrite Nat.add_comm, Nat.mod_add, Nat.mod_small; lia).
    assert (Ed : (y * w + x) / w = y) by (rewrite Nat.add_comm, Nat.div_add, Nat.div_small; lia).
    destruct (Nat.eqb_spec (x + 1) w) as [E|E].
    + replace (y * w + x + 1) with ((y + 1) * w + 0) by nia.
      rewrite IH by lia.
      replace ((y + 1) * w + 0) with (S (y * w + x)) by nia.
      rewrite Em, Ed; reflexivity.
    + replace (y * w + x + 1) with (y * w + (x + 1)) by lia.
      rewrite IH by lia.
      replace (y * w + (x + 1)) with (S (y * w + x)) by lia.
      rewrite Em, Ed; reflexivity.
Qed.

Lemma map_add_seq b n : map (fun x => b + x) (seq 0 n) = seq b n.
Proof.
  revert b; induction n as [|n IH]; intros b; simpl; auto.
  f_equal; [lia|]; rewrite <- seq_shift, map_map, <- (IH (S b)).
  apply map_ext; intros; lia.
Qed.

Lemma raster_list w h :
  0 < w ->
  map (fun k => (k / w, k mod w)) (seq 0 (w * h)) = list_prod (seq 0 h) (seq 0 w).
Proof.
  intros Hw; rewrite Nat.mul_comm.
  assert (G : forall h y0, map (fun k => (k / w, k mod w)) (seq (y0 * w) (h * w)) = list_prod (seq y0 h) (seq 0 w)).
  { clear h; induction h as [|h IH]; intros y0; simpl; auto.
    rewrite seq_app, map_app; f_equal.
    - rewrite <- map_add_seq, map_map; apply map_ext_in; intros x Hx; apply in_seq in Hx.
      rewrite Nat.add_comm, Nat.div_add, Nat.mod_add, Nat.div_small, Nat.mod_small by lia; reflexivity.
    - rewrite <- IH; f_equal; f_equal; lia. }
  apply (G h 0).
Qed.

Lemma pixels_raster {A} (im : image A) w h f fuel :
  Repr im w h f -> (0 < w \/ h = 0) -> w * h < fuel ->
  pixels_with_coordinates fuel im =
  Some (Ok (map (fun p => (f (snd p) (fst p), snd p, fst p)) (list_prod (seq 0 h) (seq 0 w)))).
Proof.
  intros (D & L & H) Hwh Hf; unfold pixels_with_coordinates; rewrite D, L.
  destruct (Nat.eq_dec w 0) as [->|Nw].
  - destruct Hwh as [Hx| ->]; [lia|]; simpl; destruct fuel; [lia | reflexivity].
  - pose proof (piter_run_spec (pix im) w h f ltac:(lia) L H (w * h) 0 0 fuel) as G.
    simpl Nat.mul in G; simpl Nat.add in G; rewrite G; try lia.
    rewrite <- raster_list by lia; rewrite map_map; reflexivity.
Qed.

(** ** C07 *)
Lemma set_index_spec {A} (im : image A) k v :
  wf im ->
  (k < prodn (dims im) ->
     exists im', set_index im k v = Ok im' /\ dims im' = dims im /\ nth_error (pix im') k = Some v /\
       forall j, j <> k -> nth_error (pix im') j = nth_error (pix im) j) /\
  (prodn (dims im) <= k -> set_index im k v = Throw OutOfRange).
Proof.
  intros W; unfold set_index, count; split; intros Hk; destruct (Nat.leb_spec (prodn (dims im)) k); try lia; auto.
  rewrite vset_ok by (rewrite W; lia); simpl; eexists; split; [reflexivity|]; simpl; repeat split; auto.
  - apply list_upd_same; rewrite W; lia.
  - intros j Hj; apply list_upd_other, Hj.
Qed.

Lemma set_tuple_spec {A} (im : image A) loc v :
  wf im ->
  (in_range (dims im) loc ->
     exists im', set_tuple im loc v = Ok (true, im') /\ dims im' = dims im /\ lookup im' loc = Some v /\
       forall j, in_range (dims im) j -> j <> loc -> lookup im' j = lookup im j) /\
  (length loc = length (dims im) -> ~ in_range (dims im) loc -> set_tuple im loc v = Ok (false, im)) /\
  (length loc <> length (dims im) -> set_tuple im loc v = Throw RuntimeError).
Proof.
  intros W; unfold set_tuple, check_boundary_tuple; repeat split.
  - intros HI; rewrite (in_range_length _ _ HI), Nat.eqb_refl; simpl.
    rewrite check_tuple_in by exact HI; simpl.
    rewrite calculate_index_off by (rewrite (in_range_length _ _ HI); lia); simpl.
    rewrite vset_ok by (rewrite W; apply off_lt, HI); simpl.
    eexists; split; [reflexivity|]; unfold lookup; simpl; repeat split; auto.
    + apply list_upd_same; rewrite W; apply off_lt, HI.
    + intros j Hj N; apply list_upd_other; intros E; apply N; eapply off_inj; eauto.
  - intros HL HN; rewrite HL, Nat.eqb_refl; simpl; rewrite check_tuple_out by assumption; reflexivity.
  - intros N; destruct (Nat.eqb_spec (length loc) (length (dims im))); [lia | reflexivity].
Qed.

(** ** C08 *)
Lemma size_eqb_spec s1 s2 : size_eqb s1 s2 = true <-> s1 = s2.
Proof. unfold size_eqb; destruct (list_eq_dec Nat.eq_dec s1 s2); split; auto; discriminate. Qed.

Lemma transform2_spec {B C D} (f : B -> C -> D) l1 l2 :
  length l1 = length l2 ->
  exists r, transform2 f l1 l2 = Ok r /\ length r = length l1 /\
    forall k a b, nth_error l1 k = Some a -> nth_error l2 k = Some b -> nth_error r k = Some (f a b).
Proof.
  revert l2; induction l1 as [|a l1 IH]; intros [|b l2] H; simpl in *; try lia.
  - exists []; repeat split; auto; intros [|k]; discriminate.
  - destruct (IH l2) as (r & E & L & Hr); [lia|]; rewrite E; simpl.
    eexists; split; [reflexivity|]; simpl; split; [lia|].
    intros [|k] u v Hu Hv; simpl in *; [congruence | eauto].
Qed.

Lemma op_assign_spec {A} (f : A -> A -> A) (a b : image A) :
  wf a -> wf b ->
  (dims a = dims b ->
     exists c, op_assign f a b = Ok c /\ dims c = dims a /\ wf c /\
       forall idx u v, in_range (dims a) idx -> lookup a idx = Some u -> lookup b idx = Some v ->
                       lookup c idx = Some (f u v)) /\
  (dims a <> dims b -> op_assign f a b = Throw RuntimeError).
Proof.
  intros Wa Wb; unfold op_assign; split; intros HD.
  - replace (size_eqb (dims b) (dims a)) with true by (symmetry; apply size_eqb_spec; auto).
    destruct (transform2_spec f (pix a) (pix b)) as (r & E & L & Hr); [rewrite Wa, Wb; congruence|].
    rewrite E; simpl; eexists; split; [reflexivity|]; unfold wf, lookup; simpl.
    split; auto; split; [congruence|].
    intros idx u v HI Hu Hv; apply Hr; auto; rewrite HD; auto.
  - destruct (size_eqb (dims b) (dims a)) eqn:E; auto; apply size_eqb_spec in E; congruence.
Qed.

(** an operation and its right inverse *)
Lemma op_assign_undo {A} (f g : A -> A -> A) (a b : image A) :
  (forall u v, g (f u v) v = u) ->
  wf a -> wf b -> dims a = dims b ->
  (let* c := op_assign f a b in op_assign g c b) = Ok a.
Proof.
  intros Hfg Wa Wb HD.
  destruct (op_assign_spec f a b Wa Wb) as [H _]; destruct (H HD) as (c & E & Dc & Wc & Lc); rewrite E; simpl.
  destruct (op_assign_spec g c b Wc Wb) as [H' _]; destruct H' as (e & E' & De & We & Le); [congruence|].
  rewrite E'; f_equal.
  destruct a as [da pa], e as [de pe]; simpl in *; subst de; unfold wf in *; simpl in *.
  rewrite Dc in *; f_equal.
  apply nth_error_ext_len; [congruence|]; intros k Hk.
  rewrite We in Hk; destruct (unoff_spec da k Hk) as [IR Ek].
  destruct (nth_error_lt pa k) as (u & Eu); [lia|].
  destruct (nth_error_lt (pix b) k) as (v & Ev); [rewrite Wb, <- HD; lia|].
  rewrite Eu, <- Ek.
  assert (Lb : lookup b (unoff da k) = Some v) by (unfold lookup; rewrite <- HD, Ek; exact Ev).
  assert (La : lookup (mkImage da pa) (unoff da k) = Some u) by (unfold lookup; simpl; rewrite Ek; exact Eu).
  pose proof (Lc _ _ _ IR La Lb) as Hc.
  pose proof (Le _ _ _ IR Hc Lb) as He; unfold lookup in He; simpl in He; rewrite He, Hfg; reflexivity.
Qed.

(** ** C09 *)
Section Wrap.
  Open Scope Z_scope.

  Lemma two64_pos : 0 < two64.
  Proof. reflexivity. Qed.

  Lemma w64_small z : 0 <= z < two64 -> w64 z = z.
  Proof. apply Z.mod_small. Qed.

  Lemma calc_index64_mod ds idx k st :
    (length idx <= length ds)%nat ->
    exists r, calc_index64 (map Z.of_nat ds) (map Z.of_nat idx) (w64 k) (w64 st) = Ok r /\
      r = w64 (k + st * Z.of_nat (off ds idx)).
  Proof.
    revert ds k st; induction idx as [|i idx IH]; intros ds k st HL.
    - exists (w64 k); split; [destruct ds; reflexivity|]; destruct ds; simpl; f_equal; lia.
    - destruct ds as [|d ds]; simpl in HL; [lia|]; cbn [map calc_index64].
      replace (w64 (w64 k + w64 (Z.of_nat i * w64 st))) with (w64 (k + Z.of_nat i * st)).
      2:{ unfold w64; rewrite Zmult_mod_idemp_r, <- Zplus_mod; reflexivity. }
      replace (w64 (w64 st * Z.of_nat d)) with (w64 (st * Z.of_nat d)).
      2:{ unfold w64; rewrite Zmult_mod_idemp_l; reflexivity. }
      destruct (IH ds (k + Z.of_nat i * st) (st * Z.of_nat d)) as (r & E & Hr); [lia|].
      exists r; split; auto; rewrite Hr; f_equal; simpl off; nia.
  Qed.

  Lemma check_bounds64_agree ds idx :
    check_bounds64 (map Z.of_nat ds) (map Z.of_nat idx) = check_bounds_loop ds idx.
  Proof.
    revert ds; induction idx as [|i idx IH]; intros [|d ds]; simpl; auto.
    destruct (Z.leb_spec (Z.of_nat d) (Z.of_nat i)), (Nat.leb_spec d i); try lia; auto.
  Qed.

  Lemma check_bounds_loop_ok_in ds idx :
    length idx = length ds -> check_bounds_loop ds idx = Ok tt -> in_range ds idx.
  Proof.
    intros HL H; destruct (in_range_dec ds idx); auto.
    rewrite check_bounds_out in H by auto; discriminate.
  Qed.

  Lemma at64_agree {A} (im : image A) idx :
    wf im -> Z.of_nat (prodn (dims im)) < two64 ->
    at64 (map Z.of_nat (dims im)) (pix im) (map Z.of_nat idx) = at_ im idx.
  Proof.
    intros W HP; unfold at64, at_, loc_checked, check_boundary, loc_unchecked; rewrite !map_length.
    destruct (Nat.eqb_spec (length idx) (length (dims im))) as [HL|HL]; simpl; auto.
    rewrite check_bounds64_agree.
    destruct (check_bounds_loop (dims im) idx) as [[]| |] eqn:E; simpl; auto.
    apply check_bounds_loop_ok_in in E; auto.
    rewrite calculate_index_off by lia; simpl.
    destruct (calc_index64_mod (dims im) idx 0 1) as (r & Er & Hr); [lia|].
    change (w64 0) with 0 in Er; change (w64 1) with 1 in Er; rewrite Er; simpl.
    pose proof (off_lt _ _ E) as HO.
    rewrite w64_small in Hr by lia; subst r.
    replace (0 + 1 * Z.of_nat (off (dims im) idx)) with (Z.of_nat (off (dims im) idx)) by lia.
    rewrite W.
    destruct (Z.ltb_spec (Z.of_nat (off (dims im) idx)) (Z.of_nat (prodn (dims im)))); [|lia].
    rewrite Nat2Z.id; reflexivity.
  Qed.

  Lemma prod64_mod l acc :
    fold_left (fun acc s => w64 (acc * s)) (map Z.of_nat l) (w64 acc) = w64 (acc * Z.of_nat (prodn l)).
  Proof.
    revert acc; induction l as [|d l IH]; intros acc; simpl.
    - f_equal; unfold prodn; simpl; lia.
    - replace (w64 (w64 acc * Z.of_nat d)) with (w64 (acc * Z.of_nat d))
        by (unfold w64; rewrite Zmult_mod_idemp_l; reflexivity).
      rewrite IH; f_equal; unfold prodn; simpl; lia.
  Qed.

  Lemma image_sizes64_agree {A} (d : A) ds :
    Z.of_nat (prodn ds) < two64 ->
    image_sizes64 d (map Z.of_nat ds) = (map Z.of_nat ds, pix (image_sizes d ds)).
  Proof.
    intros H; unfold image_sizes64, image_sizes; simpl; f_equal; f_equal.
    unfold prod64; change 1 with (w64 1) at 1; rewrite prod64_mod, Z.mul_1_l, w64_small by lia; lia.
  Qed.

  (** extents whose product wraps: the bound check admits (0,0) although nothing is stored *)
  Lemma overflow_witness :
    image_sizes64 (0%Z) [2 ^ 32; 2 ^ 32] = ([2 ^ 32; 2 ^ 32], []) /\
    at64 [2 ^ 32; 2 ^ 32] ([] : list Z) [0; 0] = UB.
  Proof. split; vm_compute; reflexivity. Qed.
End Wrap.
