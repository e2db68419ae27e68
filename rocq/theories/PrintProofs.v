(** PrintProofs.v - lemmas about PrintModel.v *)
From Coq Require Import Ascii String ZifyBool ZifyNat.
From Verif Require Import Base ImageModel ImageFacts ImageProofs TextModel TextProofs NestedModel PrintModel.
Open Scope nat_scope.
Open Scope list_scope.

(** ** texts that can be cut in one way only *)
Definition starts (P : nat -> Prop) (t : text) : Prop := match t with [] => False | c :: _ => P c end.

Lemma span_split (P : nat -> Prop) l1 l2 t1 t2 : Forall P l1 -> Forall P l2 -> ~ starts P t1 -> ~ starts P t2 ->
  l1 ++ t1 = l2 ++ t2 -> l1 = l2 /\ t1 = t2.
Proof.
  revert l2; induction l1 as [|a l1 IH]; intros [|b l2] F1 F2 N1 N2 E; cbn [app] in E; auto.
  - exfalso; apply N1; rewrite E; inversion F2; auto.
  - exfalso; apply N2; rewrite <- E; inversion F1; auto.
  - injection E as -> E. inversion F1; inversion F2; subst. destruct (IH l2) as [-> ->]; auto.
Qed.

Definition is_num (c : nat) : Prop := c = minus \/ 48 <= c <= 57.
Lemma dec_z_num z : Forall is_num (dec_z z).
Proof. apply Forall_forall; intros c; apply dec_z_chars. Qed.
Lemma dec_num n : Forall is_num (dec n).
Proof. apply Forall_forall; intros c H. right. pose proof (dec_digits n) as F. unfold all_digits in F. rewrite Forall_forall in F. apply is_digit_spec, F, H. Qed.
Lemma dec_z_inj a b : dec_z a = dec_z b -> a = b.
Proof. intros E. pose proof (stod_dec_z a) as A. rewrite E, stod_dec_z in A. injection A; auto. Qed.
Lemma dec_inj a b : dec a = dec b -> a = b.
Proof. intros E. pose proof (digits_dec a) as A. rewrite E, digits_dec in A. auto. Qed.
Lemma dec_z_split a b t1 t2 : ~ starts is_num t1 -> ~ starts is_num t2 -> dec_z a ++ t1 = dec_z b ++ t2 -> a = b /\ t1 = t2.
Proof. intros N1 N2 E. destruct (span_split is_num _ _ _ _ (dec_z_num a) (dec_z_num b) N1 N2 E) as [D ->]. split; auto. apply dec_z_inj, D. Qed.
Lemma dec_split a b t1 t2 : ~ starts is_num t1 -> ~ starts is_num t2 -> dec a ++ t1 = dec b ++ t2 -> a = b /\ t1 = t2.
Proof. intros N1 N2 E. destruct (span_split is_num _ _ _ _ (dec_num a) (dec_num b) N1 N2 E) as [D ->]. split; auto. apply dec_inj, D. Qed.
Lemma dec_z_starts z t : starts is_num (dec_z z ++ t).
Proof. pose proof (dec_z_num z) as F; pose proof (dec_z_nonempty z). destruct (dec_z z); [congruence|]. inversion F; auto. Qed.
Lemma dec_starts z t : starts is_num (dec z ++ t).
Proof. pose proof (dec_num z) as F; pose proof (dec_nonempty z). destruct (dec z); [congruence|]. inversion F; auto. Qed.
Lemma not_num c t : c <> minus -> ~ 48 <= c <= 57 -> ~ starts is_num (c :: t).
Proof. intros A B [|]; auto. Qed.
Lemma newline_not_num t : ~ starts is_num (newline :: t).
Proof. apply not_num; unfold newline, minus; lia. Qed.
Lemma nil_not_num : ~ starts is_num [].
Proof. intros []. Qed.

(** a text that starts with a literal *)
Ltac nonum := first [apply nil_not_num | apply newline_not_num
  | match goal with |- ~ starts is_num (text_of ?s ++ ?t) => apply not_num; vm_compute; lia end
  | match goal with |- ~ starts is_num (text_of ?s) => apply not_num; vm_compute; lia end].

(** a code is [clean] when its words can be cut off any text *)
Definition clean {A} (c : A -> text) : Prop := forall a b t1 t2, c a ++ t1 = c b ++ t2 -> a = b /\ t1 = t2.
Definition visible {A} (c : A -> text) : Prop := forall a t, ~ starts (eq newline) (c a ++ t) /\ c a <> [].

Lemma words_split {A} (c : A -> text) l1 l2 t1 t2 (stop : text -> Prop) :
  (forall a t, ~ stop (c a ++ t)) ->
  (forall a b t1 t2, c a ++ t1 = c b ++ t2 -> a = b /\ t1 = t2) -> stop t1 -> stop t2 ->
  concat (map c l1) ++ t1 = concat (map c l2) ++ t2 -> l1 = l2 /\ t1 = t2.
Proof.
  intros S C S1 S2. revert l2; induction l1 as [|a l1 IH]; intros [|b l2] E; cbn [map concat app] in E; auto.
  - exfalso. rewrite <- app_assoc in E. apply (S b (concat (map c l2) ++ t2)). rewrite <- E; auto.
  - exfalso. rewrite <- app_assoc in E. apply (S a (concat (map c l1) ++ t1)). rewrite E; auto.
  - rewrite <- !app_assoc in E. apply C in E as [-> E]. apply IH in E as [-> ->]; auto.
Qed.

Lemma skipn_skipn {A} a b (l : list A) : skipn a (skipn b l) = skipn (b + a) l.
Proof. revert l; induction b as [|b IH]; intros l; [reflexivity|]. destruct l; [rewrite !skipn_nil; auto|]. cbn. apply IH. Qed.
Lemma nth_error_skipn' {A} n (l : list A) k : nth_error (skipn n l) k = nth_error l (n + k).
Proof. revert l; induction n as [|n IH]; intros [|a l]; cbn; auto. destruct k; auto. Qed.
Lemma nth_error_firstn' {A} n (l : list A) k : k < n -> nth_error (firstn n l) k = nth_error l k.
Proof. revert l k; induction n as [|n IH]; intros [|a l] [|k] H; cbn; auto; try lia. apply IH; lia. Qed.
Lemma prodn_rev l : prodn (rev l) = prodn l.
Proof. induction l as [|a l IH]; [reflexivity|]. cbn [rev]. rewrite prodn_app, IH. unfold prodn; cbn. lia. Qed.

(** ** the picture as the reader sees it: [rds] are the extents, the last one first, and [l] the elements in storage order *)
Section Layout.
  Context {A : Type} (leaf : A -> text).
  Fixpoint layout (rds : list nat) (l : list A) : text :=
    match rds with
    | [] => []
    | n :: r =>
        match r with
        | [] => concat (map leaf l)
        | _ => concat (map (fun i => layout r (firstn (prodn r) (skipn (i * prodn r) l)) ++ [newline]) (seq 0 n)) ++ [newline]
        end
    end.

  Lemma layout_head rds l t : visible leaf -> rds <> [] -> Forall (lt 0) rds -> length l = prodn rds -> ~ starts (eq newline) (layout rds l ++ t) /\ layout rds l <> [].
  Proof.
    intros V. revert l t; induction rds as [|n r IH]; intros l t N F L; [congruence|]. clear N. inversion F; subst.
    destruct r as [|m r].
    - cbn [layout]. destruct l as [|a l]; [cbn in L; lia|]. cbn [map concat]. destruct (V a (concat (map leaf l) ++ t)). rewrite <- app_assoc; split; auto.
      intros E; apply app_eq_nil in E as [E _]; auto.
    - set (r' := m :: r) in *. change (prodn (n :: r')) with (n * prodn r') in L.
      change (layout (n :: r') l) with (concat (map (fun i => layout r' (firstn (prodn r') (skipn (i * prodn r') l)) ++ [newline]) (seq 0 n)) ++ [newline]).
      destruct n as [|n]; [lia|]. cbn [seq map concat]. rewrite <- !app_assoc.
      destruct (IH (firstn (prodn r') (skipn (0 * prodn r') l)) ([newline] ++ concat (map (fun i => layout r' (firstn (prodn r') (skipn (i * prodn r') l)) ++ [newline]) (seq 1 n)) ++ [newline] ++ t)) as [I1 I2];
        [discriminate|auto| |].
      + rewrite firstn_length, skipn_length. lia.
      + split; [exact I1|]. intros E; apply app_eq_nil in E as [E _]; auto.
  Qed.

  Lemma firstn_skipn_cut (k : nat) (l1 l2 : list A) : firstn k l1 = firstn k l2 -> skipn k l1 = skipn k l2 -> l1 = l2.
  Proof. intros A1 A2. rewrite <- (firstn_skipn k l1), <- (firstn_skipn k l2). congruence. Qed.

  Definition rows (r : list nat) (n : nat) (l : list A) : text :=
    concat (map (fun i => layout r (firstn (prodn r) (skipn (i * prodn r) l)) ++ [newline]) (seq 0 n)).
  Lemma rows_0 r l : rows r 0 l = [].
  Proof. reflexivity. Qed.
  Lemma rows_S r n l : rows r (S n) l = layout r (firstn (prodn r) l) ++ newline :: rows r n (skipn (prodn r) l).
  Proof.
    unfold rows. cbn [seq map concat]. rewrite <- app_assoc. cbn [app Nat.mul skipn]. f_equal. f_equal.
    rewrite <- seq_shift, map_map. f_equal. apply map_ext. intros i. do 3 f_equal. rewrite skipn_skipn. reflexivity.
  Qed.
  Lemma layout_one n l : layout [n] l = concat (map leaf l).
  Proof. reflexivity. Qed.
  Lemma layout_more n m r l : layout (n :: m :: r) l = rows (m :: r) n l ++ [newline].
  Proof. reflexivity. Qed.

  Lemma layout_split rds1 : forall rds2 l1 l2 t1 t2, clean leaf -> visible leaf -> rds1 <> [] ->
    length rds1 = length rds2 -> Forall (lt 0) rds1 -> Forall (lt 0) rds2 -> length l1 = prodn rds1 -> length l2 = prodn rds2 ->
    t1 = [] \/ starts (eq newline) t1 -> t2 = [] \/ starts (eq newline) t2 ->
    layout rds1 l1 ++ t1 = layout rds2 l2 ++ t2 -> rds1 = rds2 /\ l1 = l2 /\ t1 = t2.
  Proof.
    induction rds1 as [|n r1 IH]; intros [|m r2] l1 l2 t1 t2 C V N L F1 F2 L1 L2 T1 T2 E; try discriminate L; [congruence|]. clear N.
    inversion F1 as [|? ? Pn F1']; inversion F2 as [|? ? Pm F2']; subst.
    destruct r1 as [|n' r1], r2 as [|m' r2]; try discriminate L.
    - rewrite !layout_one in E. apply (words_split leaf l1 l2 t1 t2 (fun t => t = [] \/ starts (eq newline) t)) in E as [-> ->]; auto.
      + cbn in L1, L2. repeat split; auto. f_equal; lia.
      + intros a t [Z|Z]; [apply app_eq_nil in Z as [Z _]; destruct (V a []); auto|destruct (V a t); auto].
    - rewrite !layout_more in E. set (s1 := n' :: r1) in *. set (s2 := m' :: r2) in *.
      change (prodn (n :: s1)) with (n * prodn s1) in L1. change (prodn (m :: s2)) with (m * prodn s2) in L2.
      assert (N1 : s1 <> []) by discriminate.
      assert (IH' : forall k1 k2 t1 t2, length k1 = prodn s1 -> length k2 = prodn s2 ->
        layout s1 k1 ++ newline :: t1 = layout s2 k2 ++ newline :: t2 -> s1 = s2 /\ k1 = k2 /\ t1 = t2).
      { intros k1 k2 u1 u2 K1 K2 K. apply IH in K as (-> & -> & K); auto; try (right; reflexivity). injection K as ->; auto. }
      rewrite <- !app_assoc in E. cbn [app] in E.
      assert (HD : forall k t, length k = prodn s1 -> ~ starts (eq newline) (layout s1 k ++ t)) by (intros k t K; apply (layout_head s1 k t); auto).
      assert (HD2 : forall k t, length k = prodn s2 -> ~ starts (eq newline) (layout s2 k ++ t)) by (intros k t K; apply (layout_head s2 k t); auto; discriminate).
      assert (R : n = m /\ (0 < n -> s1 = s2) /\ l1 = l2 /\ t1 = t2).
      { clear Pn Pm F1 F2 T1 T2 L IH. revert m l1 l2 L1 L2 E. induction n as [|n IHn]; intros [|m] l1 l2 L1 L2 E.
        - rewrite !rows_0 in E. cbn in E. injection E as ->. destruct l1; [|discriminate]. destruct l2; [|discriminate]. repeat split; auto; lia.
        - exfalso. rewrite rows_0, rows_S, <- app_assoc in E. eapply (HD2 (firstn (prodn s2) l2)); [rewrite firstn_length; lia|]. rewrite <- E. reflexivity.
        - exfalso. rewrite rows_0, rows_S, <- app_assoc in E. eapply (HD (firstn (prodn s1) l1)); [rewrite firstn_length; lia|]. rewrite E. reflexivity.
        - rewrite !rows_S, <- !app_assoc in E. cbn [app] in E.
          apply IH' in E as (Es & Ek & E); [|rewrite firstn_length; lia|rewrite firstn_length; lia].
          rewrite <- Es in *. apply IHn in E as (-> & _ & El & ->); [|rewrite skipn_length; lia|rewrite skipn_length; lia].
          repeat split; auto. eapply firstn_skipn_cut; eauto. }
      destruct R as (-> & Es & -> & ->). rewrite Es by lia. auto.
  Qed.
End Layout.

(** ** print writes the picture in its storage order *)
Section PrintImage.
  Context {A : Type} (show : A -> text) (sep : text) (im : image A).
  Let leaf (a : A) : text := show a ++ sep.
  Let seg (dlo dhi hi : list nat) : list A := firstn (prodn dlo) (skipn (prodn dlo * off dhi hi) (pix im)).

  Lemma print_helper_layout d : forall dlo dhi lo hi out, wf im -> dims im = dlo ++ dhi -> length dlo = S d -> length lo = S d ->
    in_range dhi hi ->
    exists lo', length lo' = S d /\
      print_helper show sep im d (lo ++ hi, out) = Ok (lo' ++ hi, out ++ layout leaf (rev dlo) (seg dlo dhi hi)).
  Proof.
    induction d as [|d IH]; intros dlo dhi lo hi out W E L1 L2 R.
    - destruct dlo as [|n [|]]; try discriminate. destruct lo as [|x [|]]; try discriminate. cbn [app] in *.
      cbn [print_helper]. rewrite (vget_ok _ 0 n) by (rewrite E; reflexivity). cbn [bind].
      destruct (for_range_inv n (fun k st => exists y, st = (y :: hi, out ++ concat (map leaf (firstn k (seg [n] dhi hi)))))
        (fun i st => let '(indices, out0) := st in let* indices0 := vset indices 0 i in
          let* v := atu_range im indices0 in Ok (indices0, out0 ++ show v ++ sep)) (x :: hi, out)) as (s' & Es & (y & ->)).
      + exists x. cbn. rewrite app_nil_r. reflexivity.
      + intros i s Hi (y & ->).
        assert (O : off (n :: dhi) (i :: hi) < length (pix im)).
        { rewrite W, E. apply off_lt. constructor; auto. }
        destruct (nth_error_lt (pix im) _ O) as (v & Ev).
        eexists; split.
        * rewrite vset_ok by (cbn; lia). cbn [bind list_upd]. unfold atu_range. rewrite calculate_index_off.
          2:{ rewrite E. cbn [length]. apply in_range_length in R. lia. }
          cbn [bind]. rewrite E, (vget_ok _ _ v) by exact Ev. cbn [bind]. reflexivity.
        * exists i. f_equal. rewrite <- app_assoc. f_equal.
          rewrite (firstn_S_snoc _ _ v), map_app, concat_app. { cbn [map concat]. rewrite app_nil_r. reflexivity. }
          unfold seg. change (prodn [n]) with (n * 1). rewrite Nat.mul_1_r. rewrite nth_error_firstn' by lia. rewrite nth_error_skipn'. cbn [off] in Ev. rewrite Nat.add_comm. exact Ev.
      + exists [y]. split; [reflexivity|]. rewrite Es. cbn [app rev]. rewrite layout_one. do 5 f_equal.
        apply firstn_all2. unfold seg. rewrite firstn_length. change (prodn [n]) with (n * 1). lia.
    - destruct (exists_last (l := dlo)) as (dl & n & ->); [destruct dlo; discriminate|].
      destruct (exists_last (l := lo)) as (l0 & x & ->); [destruct lo; discriminate|].
      rewrite app_length in L1, L2. cbn in L1, L2. assert (Ld : length dl = S d) by lia. assert (Ll : length l0 = S d) by lia.
      rewrite <- !app_assoc in *. cbn [app] in *.
      cbn [print_helper]. rewrite (vget_ok _ (S d) n).
      2:{ rewrite E, nth_error_app2, Ld, Nat.sub_diag by lia. reflexivity. }
      cbn [bind]. rewrite rev_app_distr. cbn [rev app].
      set (whole := seg (dl ++ [n]) dhi hi).
      set (blk := fun i => layout leaf (rev dl) (firstn (prodn (rev dl)) (skipn (i * prodn (rev dl)) whole)) ++ [newline]).
      destruct (for_range_inv n (fun k st => exists l' y, length l' = S d /\ st = (l' ++ y :: hi, out ++ concat (map blk (seq 0 k))))
        (fun i st => let '(indices, out0) := st in let* indices0 := vset indices (S d) i in
          let* (indices1, out1) := print_helper show sep im d (indices0, out0) in Ok (indices1, out1 ++ [newline])) (l0 ++ x :: hi, out)) as (s' & Es & (l' & y & Ll' & ->)).
      + exists l0, x. split; auto. cbn. rewrite app_nil_r. reflexivity.
      + intros i s Hi (l' & y & Ll' & ->).
        destruct (IH dl (n :: dhi) l' (i :: hi) (out ++ concat (map blk (seq 0 i)))) as (l'' & Ll'' & El); auto.
        { constructor; auto. }
        eexists; split.
        * rewrite vset_ok by (rewrite app_length; cbn; lia). cbn [bind].
          assert (U : list_upd (S d) i (l' ++ y :: hi) = l' ++ i :: hi).
          { rewrite <- Ll'. clear. induction l' as [|a l' I]; cbn; congruence. }
          rewrite U, El. cbn [bind]. reflexivity.
        * exists l'', i. split; auto. f_equal. rewrite <- app_assoc.
          rewrite (seq_S i 0), map_app, concat_app, <- app_assoc. do 2 f_equal. cbn [map concat]. rewrite app_nil_r. unfold blk. cbn [Nat.add].
          f_equal. f_equal. unfold whole, seg. rewrite prodn_rev, prodn_app. change (prodn [n]) with (n * 1). rewrite Nat.mul_1_r.
          cbn [off]. rewrite skipn_firstn_comm, firstn_firstn, skipn_skipn. f_equal; [nia|]. f_equal. nia.
      + exists (l' ++ [y]). split; [rewrite app_length; cbn; lia|]. rewrite Es. cbn [bind].
        assert (Q : layout leaf (n :: rev dl) whole = concat (map blk (seq 0 n)) ++ [newline]).
        { destruct (rev dl) eqn:ER; [apply (f_equal (@length nat)) in ER; rewrite rev_length in ER; cbn in ER; lia|]. reflexivity. }
        rewrite Q, <- !app_assoc. reflexivity.
  Qed.

  Lemma print_image_layout : wf im -> dims im <> [] -> print_image show sep im = Ok (layout leaf (rev (dims im)) (pix im)).
  Proof.
    intros W N. unfold print_image. destruct (dims im) as [|n ds] eqn:E; [congruence|]. rewrite <- E in *.
    destruct (print_helper_layout (length (dims im) - 1) (dims im) [] (repeat 0 (length (dims im))) [] []) as (lo & _ & P); auto.
    - rewrite app_nil_r; auto.
    - rewrite E; cbn; lia.
    - rewrite repeat_length, E; cbn; lia.
    - constructor.
    - rewrite !app_nil_r in P. rewrite P. cbn [bind app]. do 2 f_equal. unfold seg. cbn [off]. rewrite Nat.mul_0_r. cbn [skipn]. apply firstn_all2. rewrite W; auto.
  Qed.
End PrintImage.

(** ** elements that can be read back *)
Lemma app_num_split (a b : Z) s t1 t2 : ~ starts is_num s -> s <> [] -> dec_z a ++ s ++ t1 = dec_z b ++ s ++ t2 -> a = b /\ t1 = t2.
Proof.
  intros N1 N2 E. apply dec_z_split in E as [-> E].
  - split; auto. apply app_inv_head in E; auto.
  - destruct s; [congruence|exact N1].
  - destruct s; [congruence|exact N1].
Qed.
Lemma clean_int sep : ~ starts is_num sep -> sep <> [] -> clean (fun z => show_int z ++ sep).
Proof. intros N1 N2 a b t1 t2 E. rewrite <- !app_assoc in E. apply app_num_split in E; auto. Qed.
Lemma num_visible t : starts is_num t -> ~ starts (eq newline) t.
Proof. destruct t; cbn; auto. intros [->|H] E; [discriminate|]. unfold newline in E; lia. Qed.
Lemma visible_int sep : visible (fun z => show_int z ++ sep).
Proof.
  intros a t; split.
  - rewrite <- app_assoc. apply num_visible, dec_z_starts.
  - unfold show_int. intros E; apply app_eq_nil in E as [E _]. apply (dec_z_nonempty a E).
Qed.

Ltac peel E := repeat rewrite <- !app_assoc in E.
Lemma clean_rgb sep : clean (fun p => show_rgb p ++ sep).
Proof.
  intros [[r1 g1] b1] [[r2 g2] b2] t1 t2 E. unfold show_rgb in E. peel E.
  apply app_inv_head in E. apply app_num_split in E as [-> E]; [|nonum|discriminate].
  apply app_num_split in E as [-> E]; [|nonum|discriminate].
  apply app_num_split in E as [-> E]; [|nonum|discriminate].
  apply app_inv_head in E. auto.
Qed.
Lemma visible_rgb sep : visible (fun p => show_rgb p ++ sep).
Proof. intros [[r g] b] t; split; [|discriminate]. intros E; cbv in E; discriminate. Qed.

(** numbers with something between them *)
Fixpoint joined {A} (c : A -> text) (glue : text) (l : list A) : text :=
  match l with
  | [] => []
  | [a] => c a
  | a :: r => c a ++ glue ++ joined c glue r
  end.
Lemma joined_more {A} (c : A -> text) glue a b r : joined c glue (a :: b :: r) = c a ++ glue ++ joined c glue (b :: r).
Proof. reflexivity. Qed.
Lemma channels_joined l : show_channels l = joined dec_z (text_of " ") l.
Proof. induction l as [|a [|b l] IH]; auto. rewrite joined_more, <- IH. reflexivity. Qed.
Lemma seq_joined l : show_seq l = joined dec_z (text_of ", ") l.
Proof. induction l as [|a [|b l] IH]; auto. rewrite joined_more, <- IH. reflexivity. Qed.
Lemma size_joined l : show_size l = joined dec (text_of " x ") l.
Proof. induction l as [|a [|b l] IH]; auto. rewrite joined_more, <- IH. reflexivity. Qed.

Lemma joined_split {A} (c : A -> text) glue :
  (forall a t, starts is_num (c a ++ t)) ->
  (forall a b t1 t2, ~ starts is_num t1 -> ~ starts is_num t2 -> c a ++ t1 = c b ++ t2 -> a = b /\ t1 = t2) ->
  (forall t, ~ starts is_num (glue ++ t)) ->
  forall l1 l2 t1 t2, ~ starts is_num t1 -> ~ starts is_num t2 -> (forall u, t1 <> glue ++ u) -> (forall u, t2 <> glue ++ u) ->
  joined c glue l1 ++ t1 = joined c glue l2 ++ t2 -> l1 = l2 /\ t1 = t2.
Proof.
  intros H C G. assert (J : forall a l t, starts is_num (joined c glue (a :: l) ++ t)) by (intros a [|b l] t; [apply H|rewrite joined_more, <- app_assoc; apply H]).
  induction l1 as [|a l1 IH]; intros [|b l2] t1 t2 N1 N2 S1 S2 E; auto.
  - exfalso. cbn in E. apply N1. rewrite E. apply J.
  - exfalso. cbn in E. apply N2. rewrite <- E. apply J.
  - destruct l1 as [|a' l1], l2 as [|b' l2]; rewrite ?joined_more, <- ?app_assoc in E.
    + apply C in E as [-> ->]; auto.
    + apply C in E as [_ E]; auto. exfalso; eapply S1; eauto.
    + apply C in E as [_ E]; auto. exfalso; eapply S2; eauto.
    + apply C in E as [-> E]; auto. apply app_inv_head in E. apply IH in E as [-> ->]; auto.
Qed.
Lemma channels_split l1 l2 t1 t2 : show_channels l1 ++ text_of ") " ++ t1 = show_channels l2 ++ text_of ") " ++ t2 -> l1 = l2 /\ t1 = t2.
Proof.
  rewrite !channels_joined. intros E. apply joined_split in E as [-> E]; try nonum; try discriminate.
  - apply app_inv_head in E; auto.
  - apply dec_z_starts.
  - apply dec_z_split.
  - intros t; nonum.
Qed.
Lemma clean_multi sep : clean (fun p => show_multi p ++ sep).
Proof.
  intros l1 l2 t1 t2 E. unfold show_multi in E. peel E. apply app_inv_head in E.
  apply channels_split in E as [-> E]. apply app_inv_head in E. auto.
Qed.
Lemma visible_multi sep : visible (fun p => show_multi p ++ sep).
Proof. intros l t; split; [|discriminate]. intros E; cbv in E; discriminate. Qed.

(** ** the number of newlines at the end tells the number of axes *)
Lemma layout_tail {A} (leaf : A -> text) : (forall a, exists u c, leaf a = u ++ [c] /\ c <> newline) -> forall rds l, rds <> [] -> Forall (lt 0) rds -> length l = prodn rds ->
  exists u c, layout leaf rds l = u ++ c :: repeat newline (2 * (length rds - 1)) /\ c <> newline.
Proof.
  intros K. induction rds as [|n r IH]; intros l N F L; [congruence|]. clear N. inversion F; subst.
  destruct r as [|m r].
  - rewrite layout_one. destruct (exists_last (l := l)) as (l' & a & ->); [destruct l; cbn in L; [lia|discriminate]|].
    rewrite map_app, concat_app. cbn [map concat]. rewrite app_nil_r. destruct (K a) as (u & c & -> & Nc). exists (concat (map leaf l') ++ u), c. rewrite <- app_assoc; auto.
  - rewrite layout_more. set (r' := m :: r) in *. change (prodn (n :: r')) with (n * prodn r') in L. destruct n as [|n]; [lia|].
    assert (G : exists u c, rows leaf r' (S n) l = u ++ c :: repeat newline (2 * (length r' - 1) + 1) /\ c <> newline).
    { clear H1 F. revert l L. induction n as [|n IHn]; intros l L; rewrite rows_S.
      - destruct (IH (firstn (prodn r') l)) as (u & c & -> & Nc); [discriminate|auto|rewrite firstn_length; lia|].
        exists u, c. split; auto. rewrite rows_0, <- app_assoc. cbn [app]. change [newline] with (repeat newline 1). rewrite <- repeat_app. auto.
      - destruct (IHn (skipn (prodn r') l)) as (u & c & -> & Nc); [rewrite skipn_length; lia|].
        exists (layout leaf r' (firstn (prodn r') l) ++ newline :: u), c. rewrite <- app_assoc. auto. }
    destruct G as (u & c & -> & Nc). exists u, c. split; auto. rewrite <- app_assoc. cbn [app]. change [newline] with (repeat newline 1). rewrite <- repeat_app.
    do 3 f_equal. cbn [length]. unfold r'; cbn [length]. lia.
Qed.

Lemma tail_count u1 u2 c1 c2 k1 k2 : c1 <> newline -> c2 <> newline -> u1 ++ c1 :: repeat newline k1 = u2 ++ c2 :: repeat newline k2 -> k1 = k2.
Proof.
  intros N1 N2 E. apply (f_equal (@rev nat)) in E. rewrite !rev_app_distr in E. cbn [rev] in E.
  assert (R : forall k, rev (repeat newline k) = repeat newline k).
  { induction k as [|k I]; [reflexivity|]. cbn [repeat rev]. rewrite I. clear. induction k; cbn; congruence. }
  rewrite !R, <- !app_assoc in E. cbn [app] in E. clear R. revert k2 E; induction k1 as [|k1 IH]; intros [|k2] E; cbn in E; auto; try congruence.
  f_equal. apply IH. congruence.
Qed.

Theorem print_injective {A} (show : A -> text) sep (a b : image A) :
  clean (fun v => show v ++ sep) -> visible (fun v => show v ++ sep) ->
  length (dims a) = length (dims b) \/ (forall v, exists u c, show v ++ sep = u ++ [c] /\ c <> newline) ->
  wf a -> wf b -> dims a <> [] -> dims b <> [] -> Forall (lt 0) (dims a) -> Forall (lt 0) (dims b) ->
  print_image show sep a = print_image show sep b -> a = b.
Proof.
  intros C V K Wa Wb Na Nb Fa Fb E. rewrite !print_image_layout in E by auto. injection E as E.
  assert (Na' : rev (dims a) <> []) by (intros Z; apply (f_equal (@rev nat)) in Z; rewrite rev_involutive in Z; auto).
  assert (Nb' : rev (dims b) <> []) by (intros Z; apply (f_equal (@rev nat)) in Z; rewrite rev_involutive in Z; auto).
  assert (Wa' : length (pix a) = prodn (rev (dims a))) by (rewrite prodn_rev; auto).
  assert (Wb' : length (pix b) = prodn (rev (dims b))) by (rewrite prodn_rev; auto).
  apply Forall_rev in Fa. apply Forall_rev in Fb.
  assert (L : length (rev (dims a)) = length (rev (dims b))).
  { destruct K as [K|K]; [rewrite !rev_length; auto|].
    destruct (layout_tail _ K (rev (dims a)) (pix a)) as (u1 & c1 & E1 & N1); auto.
    destruct (layout_tail _ K (rev (dims b)) (pix b)) as (u2 & c2 & E2 & N2); auto.
    rewrite E1, E2 in E. apply tail_count in E; auto.
    assert (length (rev (dims a)) <> 0) by (intros Z; apply length_zero_iff_nil in Z; auto).
    assert (length (rev (dims b)) <> 0) by (intros Z; apply length_zero_iff_nil in Z; auto). lia. }
  destruct (layout_split (fun v => show v ++ sep) (rev (dims a)) (rev (dims b)) (pix a) (pix b) [] []) as (D & P & _); auto.
  { rewrite !app_nil_r. auto. }
  apply (f_equal (@rev nat)) in D. rewrite !rev_involutive in D. destruct a, b; cbn in *; congruence.
Qed.

(** ** the text, written down from the picture as a function of its indices *)
Section Written.
  Context {A : Type} (leaf : A -> text) (f : list nat -> A).
  Fixpoint written (rds : list nat) (hi : list nat) : text :=
    match rds with
    | [] => []
    | [n] => concat (map (fun i => leaf (f (i :: hi))) (seq 0 n))
    | n :: r => concat (map (fun i => written r (i :: hi) ++ [newline]) (seq 0 n)) ++ [newline]
    end.
End Written.
Lemma written_more {A} (leaf : A -> text) f n m r hi :
  written leaf f (n :: m :: r) hi = concat (map (fun i => written leaf f (m :: r) (i :: hi) ++ [newline]) (seq 0 n)) ++ [newline].
Proof. reflexivity. Qed.

Lemma layout_written {A} (leaf : A -> text) (im : image A) ds f : ReprN im ds f -> forall dlo dhi hi, ds = dlo ++ dhi -> in_range dhi hi ->
  layout leaf (rev dlo) (firstn (prodn dlo) (skipn (prodn dlo * off dhi hi) (pix im))) = written leaf f (rev dlo) hi.
Proof.
  intros (D & W & Px) dlo. induction dlo as [|n dl IH] using rev_ind; intros dhi hi E R; [reflexivity|].
  rewrite rev_app_distr. cbn [rev app]. rewrite <- app_assoc in E. cbn [app] in E.
  destruct (rev dl) as [|m r] eqn:ER.
  - apply (f_equal (@rev nat)) in ER. rewrite rev_involutive in ER. cbn in ER. subst dl. cbn [app] in *.
    rewrite layout_one. cbn [written]. f_equal. change (prodn [n]) with (n * 1). rewrite Nat.mul_1_r.
    rewrite <- map_map with (f := fun i => f (i :: hi)). f_equal. subst ds. symmetry.
    apply nth_error_ext. intros k. destruct (Nat.ltb_spec k n) as [K|K].
    + rewrite nth_error_firstn' by lia. rewrite nth_error_skipn'. rewrite (map_nth_error _ k (seq 0 n) (d := k)) by (rewrite nth_error_seq by lia; reflexivity).
      pose proof (Px (k :: hi)) as Q. rewrite E in Q. rewrite <- Q by (constructor; auto). cbn [off]. f_equal; lia.
    + replace (nth_error (map (fun i => f (i :: hi)) (seq 0 n)) k) with (@None A) by (symmetry; apply nth_error_None; rewrite map_length, seq_length; lia).
      symmetry. apply nth_error_None. rewrite firstn_length. lia.
  - rewrite layout_more, written_more, <- ER in *. f_equal. unfold rows. f_equal. apply map_ext_in. intros i Hi. apply in_seq in Hi. f_equal.
    rewrite <- (IH (n :: dhi) (i :: hi)) by (auto; constructor; auto; lia). f_equal.
    rewrite prodn_rev, prodn_app. change (prodn [n]) with (n * 1). rewrite Nat.mul_1_r. cbn [off].
    rewrite skipn_firstn_comm, firstn_firstn, skipn_skipn. f_equal; [nia|]. f_equal. nia.
Qed.

Lemma print_image_written {A} (show : A -> text) sep (im : image A) ds f : ReprN im ds f -> ds <> [] ->
  print_image show sep im = Ok (written (fun v => show v ++ sep) f (rev ds) []).
Proof.
  intros R N. destruct (R) as (D & W & _). rewrite print_image_layout.
  - f_equal. rewrite <- (layout_written (fun v => show v ++ sep) im ds f R ds [] []).
    + rewrite D. f_equal. cbn [off]. rewrite Nat.mul_0_r. cbn [skipn]. symmetry. apply firstn_all2. lia.
    + rewrite app_nil_r; auto.
    + constructor.
  - unfold wf. rewrite D; auto.
  - rewrite D; auto.
Qed.

(** ** print_with_latex *)
Lemma latex_line_clean : clean (fun e : nat * nat * (Z * Z * Z) => latex_line (fst (fst e)) (snd (fst e)) (snd e)).
Proof.
  intros [[x1 y1] [[r1 g1] b1]] [[x2 y2] [[r2 g2] b2]] t1 t2 E. cbn [fst snd] in E. unfold latex_line in E. peel E.
  apply app_inv_head in E. apply dec_split in E as [-> E]; [|nonum|nonum].
  apply app_inv_head in E. apply dec_split in E as [-> E]; [|nonum|nonum].
  apply app_inv_head in E. apply app_num_split in E as [-> E]; [|nonum|discriminate].
  apply app_num_split in E as [-> E]; [|nonum|discriminate].
  apply app_num_split in E as [-> E]; [|nonum|discriminate].
  apply app_inv_head in E. auto.
Qed.
Definition cells (w h : nat) (f : nat -> nat -> Z * Z * Z) : list (nat * nat * (Z * Z * Z)) :=
  map (fun p => (snd p, fst p, f (snd p) (fst p))) (grid h w).
Definition latex_text (w h : nat) (f : nat -> nat -> Z * Z * Z) : text :=
  text_of "\begin{tikzpicture}[x=1cm,y=0.4cm]" ++ [newline] ++
  concat (map (fun e => latex_line (fst (fst e)) (snd (fst e)) (snd e)) (cells w h f)) ++
  text_of "\end{tikzpicture}" ++ [newline].
Lemma latex_written im w h f : Repr im w h f -> latex im = Ok (latex_text w h f).
Proof.
  intros R. unfold latex. rewrite (get_width_Repr im w h f R), (get_height_Repr im w h f R). cbn [bind].
  assert (G : forall l out, (forall p, In p l -> fst p < h /\ snd p < w) ->
    for_list l (fun p out => let* v := at_ im [snd p; fst p] in Ok (out ++ latex_line (snd p) (fst p) v)) out
    = Ok (out ++ concat (map (fun p => latex_line (snd p) (fst p) (f (snd p) (fst p))) l))).
  { induction l as [|p l IH]; intros out H; cbn [for_list map concat]; [rewrite app_nil_r; auto|].
    rewrite (at_Repr im w h f) by (try apply H; cbn; auto). cbn [bind]. rewrite IH by (intros; apply H; cbn; auto). rewrite <- app_assoc. auto. }
  rewrite G by (intros p H; apply in_grid, H).
  cbn [bind]. unfold latex_text, cells. rewrite map_map. rewrite <- !app_assoc. reflexivity.
Qed.
Lemma latex_text_inj w h f w' h' f' : 0 < w -> 0 < h -> 0 < w' -> 0 < h' -> latex_text w h f = latex_text w' h' f' ->
  w = w' /\ h = h' /\ forall x y, x < w -> y < h -> f x y = f' x y.
Proof.
  intros W H W' H' E. unfold latex_text in E. do 2 apply app_inv_head in E.
  apply (words_split _ _ _ _ _ (fun t => exists u, t = 92 :: 101 :: u)) in E as [E _].
  - assert (M : forall w h f x y p, In (x, y, p) (cells w h f) <-> x < w /\ y < h /\ p = f x y).
    { clear. intros w h f x y p. unfold cells. rewrite in_map_iff. split.
      - intros ([b a] & Q & I). apply in_grid in I. cbn in Q, I. injection Q as <- <- <-. destruct I; auto.
      - intros (A & B & ->). exists (y, x). split; auto. apply in_grid; auto. }
    assert (P : forall x y, x < w /\ y < h -> x < w' /\ y < h' /\ f x y = f' x y).
    { intros x y [A B]. apply M. rewrite <- E. apply M. auto. }
    assert (P' : forall x y, x < w' /\ y < h' -> x < w /\ y < h).
    { intros x y [A B]. assert (I : In (x, y, f' x y) (cells w h f)) by (rewrite E; apply M; auto). apply M in I as (? & ? & _); auto. }
    pose proof (P (w - 1) (h - 1)). pose proof (P' (w' - 1) (h' - 1)).
    split; [lia|]. split; [lia|]. intros x y A B. apply P; auto.
  - intros [[x y] [[r g] b]] t [u Z]. discriminate Z.
  - apply latex_line_clean.
  - eexists; reflexivity.
  - eexists; reflexivity.
Qed.

(** ** recursive_print *)
Definition shallow (k : nat) (t : text) : Prop := t = [] \/ exists j c u, j <= k /\ c <> 32 /\ t = spaces j ++ c :: u.
Lemma spaces_split j k c d u v : c <> 32 -> d <> 32 -> spaces j ++ c :: u = spaces k ++ d :: v -> j = k /\ c = d /\ u = v.
Proof.
  intros C D. revert k; induction j as [|j IH]; intros [|k] E; cbn in E; try congruence; [injection E; auto|].
  injection E as E. apply IH in E as (-> & -> & ->); auto.
Qed.
Lemma deep_not_shallow k c u : c <> 32 -> ~ shallow k (spaces (S k) ++ c :: u).
Proof. intros C [Z|(j & d & v & J & D & Z)]; [discriminate|]. apply spaces_split in Z as (Z & _); auto. lia. Qed.

Section Recursive.
  Context {A : Type} (show : A -> text).
  Hypothesis show_head : forall a, exists c u, show a = c :: u /\ c <> 32.
  Hypothesis show_line : forall a b t1 t2, show a ++ newline :: t1 = show b ++ newline :: t2 -> a = b /\ t1 = t2.

  Lemma recursive_print_head d k (x : nest d A) : exists c u, recursive_print show d k x = spaces k ++ c :: u /\ c <> 32.
  Proof.
    destruct d; cbn [recursive_print].
    - destruct (show_head x) as (c & u & -> & N). exists c, (u ++ [newline]). auto.
    - exists 76, (text_of "evel " ++ dec k ++ text_of ":" ++ [newline] ++ concat (map (recursive_print show d (S k)) x)). split; auto; lia.
  Qed.
  Lemma recursive_print_split d : forall k (x y : nest d A) t1 t2, shallow k t1 -> shallow k t2 ->
    recursive_print show d k x ++ t1 = recursive_print show d k y ++ t2 -> x = y /\ t1 = t2.
  Proof.
    induction d as [|d IH]; intros k x y t1 t2 S1 S2 E; cbn [recursive_print] in E; peel E.
    - apply app_inv_head in E. apply show_line in E. auto.
    - do 5 apply app_inv_head in E.
      revert y E. induction x as [|a x IHx]; intros [|b y] E; cbn [map concat app] in E; auto.
      + exfalso. destruct (recursive_print_head d (S k) b) as (c & u & Q & N). rewrite Q, <- !app_assoc in E. rewrite E in S1. eapply deep_not_shallow; [|exact S1]; auto.
      + exfalso. destruct (recursive_print_head d (S k) a) as (c & u & Q & N). rewrite Q, <- !app_assoc in E. rewrite <- E in S2. eapply deep_not_shallow; [|exact S2]; auto.
      + peel E.
        assert (T : forall z t, shallow k t -> shallow (S k) (concat (map (recursive_print show d (S k)) z) ++ t)).
        { clear -show_head. intros z t H. destruct z as [|e z]; cbn [map concat app].
          - destruct H as [->|(j & c & u & J & N & ->)]; [left; auto|right; exists j, c, u; auto].
          - right. destruct (recursive_print_head d (S k) e) as (c & u & -> & N). exists (S k), c. eexists. split; [lia|]. split; auto. rewrite <- !app_assoc. reflexivity. }
        apply IH in E as [-> E]; auto. apply IHx in E as [-> ->]; auto.
  Qed.
End Recursive.

Lemma show_int_head a : exists c u, show_int a = c :: u /\ c <> 32.
Proof. pose proof (dec_z_num a) as F. pose proof (dec_z_nonempty a). unfold show_int. destruct (dec_z a) as [|c u]; [congruence|]. exists c, u. split; auto. inversion F as [|? ? [->|H'] _]; subst; unfold minus; lia. Qed.
Lemma show_int_line a b t1 t2 : show_int a ++ newline :: t1 = show_int b ++ newline :: t2 -> a = b /\ t1 = t2.
Proof. intros E. apply (app_num_split a b [newline] t1 t2); auto; [nonum|discriminate]. Qed.

(** the lines of a text *)
Fixpoint lines_from (cur : text) (t : text) : list text :=
  match t with
  | [] => []
  | c :: u => if c =? newline then cur :: lines_from [] u else lines_from (cur ++ [c]) u
  end.
Definition lines (t : text) : list text := lines_from [] t.
Lemma lines_from_line l : forall cur t, Forall (fun c => c <> newline) l -> lines_from cur (l ++ newline :: t) = (cur ++ l) :: lines t.
Proof.
  induction l as [|c l IH]; intros cur t F; cbn [app lines_from].
  - rewrite Nat.eqb_refl, app_nil_r. reflexivity.
  - inversion F; subst. destruct (Nat.eqb_spec c newline); [congruence|]. rewrite IH, <- app_assoc by auto. reflexivity.
Qed.
Lemma lines_line l t : Forall (fun c => c <> newline) l -> lines (l ++ newline :: t) = l :: lines t.
Proof. intros F. unfold lines at 1. rewrite lines_from_line by auto. reflexivity. Qed.

(** how far a line is indented *)
Fixpoint indent (t : text) : nat := match t with 32 :: u => S (indent u) | _ => 0 end.
Lemma indent_spaces k c u : c <> 32 -> indent (spaces k ++ c :: u) = k.
Proof. intros N. induction k as [|k IH]; cbn [spaces repeat app indent]; [|unfold spaces in IH; rewrite IH; auto]. do 33 (destruct c as [|c]; auto). lia. Qed.

Fixpoint leaves {A} (d : nat) : nest d A -> list A :=
  match d with O => fun a => [a] | S d' => fun l => concat (map (leaves d') l) end.
Section Lines.
  Context {A : Type} (show : A -> text).
  Hypothesis show_head : forall a, exists c u, show a = c :: u /\ c <> 32.
  Hypothesis show_nl : forall a, Forall (fun c => c <> newline) (show a).
  Lemma spaces_nl k : Forall (fun c => c <> newline) (spaces k).
  Proof. induction k; constructor; auto; unfold newline; lia. Qed.
  Lemma recursive_print_lines d : forall k (x : nest d A) t,
    map (skipn (k + d)) (filter (fun l => indent l =? k + d) (lines (recursive_print show d k x ++ t)))
    = map show (leaves d x) ++ map (skipn (k + d)) (filter (fun l => indent l =? k + d) (lines t)).
  Proof.
    induction d as [|d IH]; intros k x t; cbn [recursive_print leaves].
    - rewrite <- !app_assoc. cbn [app]. rewrite app_assoc. rewrite lines_line by (apply Forall_app; split; [apply spaces_nl|apply show_nl]).
      cbn [filter]. destruct (show_head x) as (c & u & Q & N). rewrite Q, indent_spaces by auto. rewrite Nat.add_0_r, Nat.eqb_refl. cbn [map app]. f_equal.
      rewrite skipn_app. unfold spaces. rewrite skipn_all2 by (rewrite repeat_length; lia). rewrite repeat_length, Nat.sub_diag, Q. reflexivity.
    - rewrite <- !app_assoc. cbn [app].
      replace (spaces k ++ text_of "Level " ++ dec k ++ text_of ":" ++ newline :: concat (map (recursive_print show d (S k)) x) ++ t)
        with ((spaces k ++ text_of "Level " ++ dec k ++ text_of ":") ++ newline :: concat (map (recursive_print show d (S k)) x) ++ t) by (rewrite <- !app_assoc; reflexivity).
      rewrite lines_line.
      2:{ repeat (apply Forall_app; split); [apply spaces_nl| | |].
          - repeat constructor; vm_compute; lia.
          - eapply Forall_impl; [|apply dec_num]. intros c [->|H]; unfold minus, newline; lia.
          - repeat constructor; vm_compute; lia. }
      cbn [filter]. change (text_of "Level " ++ dec k ++ text_of ":") with (76 :: text_of "evel " ++ dec k ++ text_of ":").
      rewrite indent_spaces by lia. destruct (Nat.eqb_spec k (k + S d)); [lia|].
      replace (k + S d) with (S k + d) by lia.
      induction x as [|a x IHx]; cbn [map concat app]; auto. rewrite <- app_assoc, IH, IHx, map_app, <- app_assoc. reflexivity.
  Qed.
End Lines.

(** ** the commands print, info and vars *)
Lemma show_seq_split l1 l2 t1 t2 : show_seq l1 ++ text_of "}" ++ t1 = show_seq l2 ++ text_of "}" ++ t2 -> l1 = l2 /\ t1 = t2.
Proof.
  rewrite !seq_joined. intros E. apply joined_split in E as [-> E]; try nonum; try discriminate.
  - apply app_inv_head in E; auto.
  - apply dec_z_starts.
  - apply dec_z_split.
  - intros t; nonum.
Qed.
Lemma show_size_split l1 l2 t1 t2 : ~ starts is_num t1 -> ~ starts is_num t2 -> (forall u, t1 <> text_of " x " ++ u) -> (forall u, t2 <> text_of " x " ++ u) ->
  show_size l1 ++ t1 = show_size l2 ++ t2 -> l1 = l2 /\ t1 = t2.
Proof.
  rewrite !size_joined. intros N1 N2 S1 S2 E. eapply joined_split; eauto.
  - apply dec_starts.
  - apply dec_split.
  - intros t; nonum.
Qed.

(** what the line of a variable can tell: not the pixels *)
Inductive summary := VSize (ds : list nat) | VCount (n : nat) (first : option (list nat)) | VSeq (l : list Z) | VNumber (z : Z) | VOther.
Definition summarise (v : shown) : summary :=
  match v with
  | SImage im => VSize (dims im)
  | SImages l => VCount (length l) (hd_error l)
  | SSeq l => VSeq l
  | SNumber z => VNumber z
  | SOther => VOther
  end.
Lemma details_split v1 v2 t1 t2 : v1 <> SOther -> v2 <> SOther -> details v1 ++ newline :: t1 = details v2 ++ newline :: t2 -> summarise v1 = summarise v2 /\ t1 = t2.
Proof.
  intros N1 N2 E.
  destruct v1 as [a|l1|z1|m1|]; [| | | |congruence]; (destruct v2 as [b|l2|z2|m2|]; [| | | |congruence]); cbn [details summarise] in *; peel E;
    first [apply app_inv_head in E | exfalso; discriminate E].
  - apply show_size_split in E as [-> E]; [|nonum|nonum|discriminate|discriminate]. injection E; auto.
  - apply show_seq_split in E as [-> E]. injection E; auto.
  - apply show_int_line in E as [-> E]; auto.
  - destruct m1 as [|d1 m1], m2 as [|d2 m2]; peel E; cbn [app] in E.
    + apply dec_split in E as [_ E]; [|nonum|nonum]. injection E; auto.
    + apply dec_split in E as [_ E]; [discriminate E|nonum|nonum].
    + apply dec_split in E as [_ E]; [discriminate E|nonum|nonum].
    + apply dec_split in E as [L E]; [|nonum|nonum]. apply app_inv_head in E.
      apply show_size_split in E as [-> E]; [|nonum|nonum|discriminate|discriminate]. apply app_inv_head in E. injection E as ->. rewrite L. auto.
Qed.

Definition good_name (t : text) : Prop := Forall (fun c => c <> 32) t.
Definition good_type (t : text) : Prop := Forall (fun c => c <> 93) t.
Definition good_var (x : text * text * shown) : Prop := good_name (fst (fst x)) /\ good_type (snd (fst x)) /\ snd x <> SOther.
Lemma var_line_split unlisted x y t1 t2 : good_var x -> good_var y ->
  var_line unlisted x ++ t1 = var_line unlisted y ++ t2 -> fst x = fst y /\ summarise (snd x) = summarise (snd y) /\ t1 = t2.
Proof.
  destruct x as [[n1 y1] v1], y as [[n2 y2] v2]. intros (Gn1 & Gt1 & O1) (Gn2 & Gt2 & O2) E. cbn [fst snd] in *. unfold var_line, padded in E.
  assert (R : forall n ty v t, v <> SOther -> (text_of "  $" ++ (n ++ spaces (15 - length n)) ++ match v with SOther => text_of " : [Type Hash: " ++ unlisted ty | _ => text_of " : [" ++ ty ++ text_of "]" ++ details v end ++ [newline]) ++ t
    = text_of "  $" ++ n ++ spaces (15 - length n) ++ text_of " : [" ++ ty ++ text_of "]" ++ details v ++ newline :: t).
  { intros n ty v t O. destruct v; try congruence; rewrite <- !app_assoc; reflexivity. }
  rewrite !R in E by auto. clear R. apply app_inv_head in E.
  assert (B : forall k u, ~ starts (fun c => c <> 32) (spaces k ++ text_of " : [" ++ u)) by (intros [|k] u Z; cbv in Z; lia).
  apply (span_split (fun c => c <> 32)) in E as [-> E]; [|auto|auto|apply B|apply B].
  do 2 apply app_inv_head in E.
  apply (span_split (fun c => c <> 93)) in E as [-> E]; [|auto|auto|intros Z; cbv in Z; lia|intros Z; cbv in Z; lia].
  apply app_inv_head in E. apply details_split in E as [-> ->]; auto.
Qed.
Lemma var_lines_inj unlisted l1 : forall l2, Forall good_var l1 -> Forall good_var l2 ->
  concat (map (var_line unlisted) l1) = concat (map (var_line unlisted) l2) ->
  map (fun x => (fst x, summarise (snd x))) l1 = map (fun x => (fst x, summarise (snd x))) l2.
Proof.
  induction l1 as [|x l1 IH]; intros [|y l2] F1 F2 E; cbn [map concat] in *; auto.
  - exfalso. destruct y as [[n ty] v]. discriminate E.
  - exfalso. destruct x as [[n ty] v]. discriminate E.
  - inversion F1; inversion F2; subst. apply var_line_split in E as (E1 & E2 & E); auto. rewrite E1, E2. f_equal. auto.
Qed.
