(** CliProofs.v - names, the workspace and the registry of the command line. *)
From Coq Require Import Ascii String DecimalString DecimalNat DecimalFacts Sorting.Sorted.
From Verif Require Import Base CliModel.
Open Scope nat_scope.

Lemma eqs_eq : forall a b, eqs a b = true <-> a = b.
Proof.
  induction a as [|c a IH]; destruct b as [|d b]; simpl; try (split; congruence).
  rewrite Bool.andb_true_iff, Ascii.eqb_eq, IH. split; [intros [-> ->]; reflexivity|intros E; injection E; auto].
Qed.
Lemma eqs_refl a : eqs a a = true.
Proof. apply eqs_eq. reflexivity. Qed.
Lemma eqs_neq a b : eqs a b = false <-> a <> b.
Proof.
  split; [intros E ->; rewrite eqs_refl in E; discriminate|].
  intros N. destruct (eqs a b) eqn:E; [|reflexivity]. apply eqs_eq in E. contradiction.
Qed.
Lemma eqs_spec a b : reflect (a = b) (eqs a b).
Proof. apply Bool.iff_reflect. symmetry. apply eqs_eq. Qed.
Lemma eqs_sym a b : eqs a b = eqs b a.
Proof. destruct (eqs_spec a b), (eqs_spec b a); congruence. Qed.

Lemma lts_irrefl a : lts a a = false.
Proof. induction a as [|c a IH]; [reflexivity|]. simpl. rewrite Nat.ltb_irrefl, Ascii.eqb_refl, IH. reflexivity. Qed.
Lemma nat_of_ascii_inj a b : nat_of_ascii a = nat_of_ascii b -> a = b.
Proof. intros E. rewrite <- (ascii_nat_embedding a), E. apply ascii_nat_embedding. Qed.
Lemma lts_trans a : forall b c, lts a b = true -> lts b c = true -> lts a c = true.
Proof.
  induction a as [|x a IH]; intros [|y b] [|z c]; simpl; try discriminate; try reflexivity.
  rewrite !Bool.orb_true_iff, !Bool.andb_true_iff, !Nat.ltb_lt, !Ascii.eqb_eq.
  intros [H|[-> H]] [K|[-> K]]; try (left; lia). right. split; [reflexivity|]. eapply IH; eauto.
Qed.
Lemma lts_total a : forall b, lts a b = false -> eqs a b = false -> lts b a = true.
Proof.
  induction a as [|x a IH]; intros [|y b]; simpl; try discriminate; try reflexivity.
  rewrite Bool.orb_false_iff. intros [H K] L. apply Bool.orb_true_iff. rewrite Bool.andb_true_iff, Nat.ltb_lt, Ascii.eqb_eq.
  apply Nat.ltb_ge in H. destruct (Ascii.eqb_spec x y) as [->|N].
  - right. split; [reflexivity|]. simpl in K, L. apply IH; assumption.
  - left. assert (nat_of_ascii x <> nat_of_ascii y) by (intros E; apply N, nat_of_ascii_inj, E). lia.
Qed.

(** ** maps *)
Section MapP.
  Context {A : Type}.
  Implicit Types m : list (str * A).
  Definition sorted_map m := StronglySorted (fun a b => lts (fst a) (fst b) = true) m.

  Lemma find_above k m : Forall (fun b : str * A => lts k (fst b) = true) m -> map_find k m = None.
  Proof.
    induction 1 as [|[k' v] m H _ IH]; [reflexivity|]. simpl in *. destruct (eqs_spec k k') as [->|]; [|exact IH].
    rewrite lts_irrefl in H. discriminate.
  Qed.
  Lemma find_set k v m k' : map_find k' (map_set k v m) = if eqs k' k then Some v else map_find k' m.
  Proof.
    induction m as [|[k0 v0] m IH]; simpl; [reflexivity|].
    destruct (eqs_spec k k0) as [->|N]; simpl.
    - destruct (eqs_spec k' k0); reflexivity.
    - destruct (lts k k0) eqn:L; simpl; [reflexivity|]. rewrite IH.
      destruct (eqs_spec k' k0) as [->|N']; [|reflexivity].
      destruct (eqs_spec k0 k); [congruence|reflexivity].
  Qed.
  Lemma find_erase k m k' : map_find k' (map_erase k m) = if eqs k' k then None else map_find k' m.
  Proof.
    unfold map_erase. induction m as [|[k0 v0] m IH]; simpl; [destruct (eqs k' k); reflexivity|].
    destruct (eqs_spec k k0) as [->|N]; simpl.
    - rewrite IH. destruct (eqs_spec k' k0); reflexivity.
    - rewrite IH. destruct (eqs_spec k' k0) as [->|]; [|reflexivity]. destruct (eqs_spec k0 k); [congruence|reflexivity].
  Qed.
  Lemma set_forall (P : str * A -> Prop) k v m : P (k, v) -> Forall P m -> Forall P (map_set k v m).
  Proof.
    intros Pk. induction 1 as [|[k0 v0] m Q F IH]; simpl; [auto|].
    destruct (eqs k k0); [auto|]. destruct (lts k k0); auto.
  Qed.
  Lemma set_sorted k v m : sorted_map m -> sorted_map (map_set k v m).
  Proof.
    induction 1 as [|[k0 v0] m S IH F]; simpl; [repeat constructor|].
    destruct (eqs_spec k k0) as [->|N]; [constructor; assumption|].
    destruct (lts k k0) eqn:L.
    - constructor; [constructor; assumption|]. constructor; [exact L|]. eapply Forall_impl; [|exact F].
      simpl. intros a H. eapply lts_trans; eauto.
    - constructor; [exact IH|]. apply set_forall; [|exact F]. apply lts_total; [exact L|]. apply eqs_neq, N.
  Qed.
  Lemma erase_sorted k m : sorted_map m -> sorted_map (map_erase k m).
  Proof.
    unfold map_erase. induction 1 as [|[k0 v0] m S IH F]; simpl; [constructor|].
    destruct (eqs k k0); simpl; [exact IH|]. constructor; [exact IH|].
    apply Forall_forall. intros x I. apply filter_In in I. eapply Forall_forall in F; [exact F|apply I].
  Qed.
  Lemma emplace_sorted k v m : sorted_map m -> sorted_map (map_emplace k v m).
  Proof. intros S. unfold map_emplace. destruct (map_find k m); [exact S|apply set_sorted, S]. Qed.
  Lemma find_emplace k v m k' :
    map_find k' (map_emplace k v m) = match map_find k' m with Some x => Some x | None => if eqs k' k then Some v else None end.
  Proof.
    unfold map_emplace. destruct (map_find k m) eqn:E.
    - destruct (map_find k' m) eqn:E'; [reflexivity|]. destruct (eqs_spec k' k); [congruence|reflexivity].
    - rewrite find_set. destruct (eqs_spec k' k) as [->|]; [rewrite E; reflexivity|].
      destruct (map_find k' m); reflexivity.
  Qed.
  (** every key occurs once, so that the list of elements is the graph of [map_find] *)
  Lemma find_in k v m : sorted_map m -> (In (k, v) m <-> map_find k m = Some v).
  Proof.
    intros S. split.
    - induction S as [|[k0 v0] m S IH F]; simpl; [contradiction|]. intros [E|I].
      + injection E as -> ->. rewrite eqs_refl. reflexivity.
      + destruct (eqs_spec k k0) as [->|]; [|auto]. eapply Forall_forall in F; [|exact I]. simpl in F. rewrite lts_irrefl in F. discriminate.
    - induction m as [|[k0 v0] m IH]; simpl; [discriminate|]. inversion S; subst.
      destruct (eqs_spec k k0) as [->|]; [intros E; injection E as ->; auto|auto].
  Qed.
End MapP.

(** ** sanitising *)
Lemma strip_front_split s : exists pre, s = pre ++ strip_front s /\ Forall (fun c => is_junk c = true) pre
  /\ match strip_front s with [] => True | c :: _ => is_junk c = false end.
Proof.
  induction s as [|c s (pre & E & F & H)]; simpl; [exists []; repeat split; constructor|].
  destruct (is_junk c) eqn:J.
  - exists (c :: pre). simpl. rewrite <- E. repeat split; auto.
  - exists []. repeat split; auto.
Qed.
Lemma strip_front_id s : match s with [] => True | c :: _ => is_junk c = false end -> strip_front s = s.
Proof. destruct s; simpl; [reflexivity|intros ->; reflexivity]. Qed.
Lemma strip_front_app pre s : Forall (fun c => is_junk c = true) pre -> strip_front (pre ++ s) = strip_front s.
Proof. induction 1 as [|c pre H _ IH]; simpl; [reflexivity|]. rewrite H. exact IH. Qed.

Definition clean_ends (t : str) : Prop :=
  (forall c r, t = c :: r -> is_junk c = false) /\ (forall r c, t = r ++ [c] -> is_junk c = false).

Lemma strip_back_split s : exists post, s = strip_back s ++ post /\ Forall (fun c => is_junk c = true) post
  /\ (forall r c, strip_back s = r ++ [c] -> is_junk c = false).
Proof.
  unfold strip_back. destruct (strip_front_split (rev s)) as (p & E & F & H). exists (rev p). repeat split.
  - rewrite <- rev_app_distr, <- E, rev_involutive. reflexivity.
  - apply Forall_rev, F.
  - intros r c Q. apply (f_equal (@rev _)) in Q. rewrite rev_involutive, rev_app_distr in Q. simpl in Q. rewrite Q in H. exact H.
Qed.
Lemma sanitize_spec s : exists pre post,
  s = pre ++ sanitize s ++ post /\ Forall (fun c => is_junk c = true) pre /\ Forall (fun c => is_junk c = true) post
  /\ clean_ends (sanitize s).
Proof.
  unfold sanitize. destruct (strip_back_split s) as (post & E & F & H).
  destruct (strip_front_split (strip_back s)) as (pre & E' & F' & H').
  exists pre, post. split; [rewrite app_assoc, <- E'; exact E|]. split; [exact F'|]. split; [exact F|]. split.
  - intros c r Q. rewrite Q in H'. exact H'.
  - intros r c Q. apply (H (pre ++ r) c). rewrite E', Q, app_assoc. reflexivity.
Qed.
Lemma sanitize_uniq pre t post : Forall (fun c => is_junk c = true) pre -> Forall (fun c => is_junk c = true) post ->
  clean_ends t -> sanitize (pre ++ t ++ post) = t.
Proof.
  intros F F' [H H']. unfold sanitize, strip_back. rewrite app_assoc, rev_app_distr, strip_front_app by (apply Forall_rev, F').
  destruct t as [|c t].
  - rewrite app_nil_r. rewrite <- (app_nil_r (rev pre)), strip_front_app by (apply Forall_rev, F). reflexivity.
  - rewrite (strip_front_id (rev (pre ++ c :: t))).
    + rewrite rev_involutive, strip_front_app by exact F. apply strip_front_id. apply (H c t). reflexivity.
    + rewrite rev_app_distr. destruct (exists_last (l := c :: t)) as (r & d & E); [discriminate|]. rewrite E, rev_app_distr. simpl.
      apply (H' r d), E.
Qed.
Lemma sanitize_clean t : clean_ends t -> sanitize t = t.
Proof. intros H. rewrite <- (sanitize_uniq [] t []) at 2 by auto. simpl. rewrite app_nil_r. reflexivity. Qed.
Lemma sanitize_idem s : sanitize (sanitize s) = sanitize s.
Proof. apply sanitize_clean. destruct (sanitize_spec s) as (? & ? & _ & _ & _ & H). exact H. Qed.

(** ** policy words *)
Lemma last_cons {A} (l : list A) : forall a d, last (a :: l) d = last l a.
Proof. induction l as [|b l IH]; intros a d; [reflexivity|]. change (last (a :: b :: l) d) with (last (b :: l) d). rewrite !IH. reflexivity. Qed.
Lemma scalar_args_spec args : scalar_args args = (last (filter is_policy args) [], args_filter args).
Proof.
  unfold scalar_args, args_filter.
  assert (G : forall l p f, fold_left (fun st a => if is_policy a then (a, snd st) else (fst st, snd st ++ [a])) l (p, f)
    = (last (filter is_policy l) p, f ++ filter (fun a => negb (is_policy a)) l)).
  { induction l as [|a l IH]; intros p f; simpl; [rewrite app_nil_r; reflexivity|].
    destruct (is_policy a); simpl; rewrite IH; simpl; f_equal.
    - symmetry. apply last_cons.
    - rewrite <- app_assoc. reflexivity. }
  apply G.
Qed.
