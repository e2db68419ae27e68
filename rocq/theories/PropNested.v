(** PropNested.v - nested containers (C67, C68), their statistics (C83) and sums of components (C84).

    The statements use the vocabulary at the beginning of NestedProofs.v: [leaves] (the flattened sequence),
    [nest_rel] (same shape, related elements), [inner_rel], [no_empty], [leaf_at], [within]. *)
From Coq Require Import Reals Lra Lia ZifyBool ZifyNat String.
From Verif Require Import Base HistModel HistProofs ReduceModel ReduceProofs NestedModel NestedProofs.
From Coq Require Import List.
Import ListNotations.
Open Scope nat_scope.

Definition strict_weak {A} (lt : A -> A -> bool) : Prop :=
  (forall a, lt a a = false) /\ (forall a b c, lt a b = true -> lt b c = true -> lt a c = true) /\
  (forall a b c, lt a b = false -> lt b c = false -> lt a c = false).

(** a list of three lists, one of them empty *)
Definition sample : nest 2 nat := [[3; 1]; []; [4; 1; 5]].

(** ** C67: predicates *)
(** With a predicate that can throw: the flattened sequence is examined from the left and no further than needed. *)
Theorem C67_predicates {A P} (p : P -> res bool) (proj : A -> res P) level (x : nest level A) :
  recursive_all_of p proj level x = all_ofM (fun a => let* v := proj a in p v) (leaves level x) /\
  recursive_any_of p proj level x = find_ifM (fun a => let* v := proj a in p v) (leaves level x) /\
  recursive_none_of p proj level x = let* b := find_ifM (fun a => let* v := proj a in p v) (leaves level x) in Ok (negb b).
Proof.
  unfold recursive_none_of, recursive_any_of; rewrite recursive_all_of_flat, recursive_find_if_flat; auto.
Qed.
Print Assumptions C67_predicates.

(** With a total predicate: for all, for some, for none of the elements. *)
Theorem C67_predicates_total {A P} (p : P -> bool) (proj : A -> P) level (x : nest level A) :
  exists a o n,
  recursive_all_of (fun v => Ok (p v)) (fun a => Ok (proj a)) level x = Ok a /\
  recursive_any_of (fun v => Ok (p v)) (fun a => Ok (proj a)) level x = Ok o /\
  recursive_none_of (fun v => Ok (p v)) (fun a => Ok (proj a)) level x = Ok n /\
  (a = true <-> forall e, In e (leaves level x) -> p (proj e) = true) /\
  (o = true <-> exists e, In e (leaves level x) /\ p (proj e) = true) /\
  (n = true <-> forall e, In e (leaves level x) -> p (proj e) = false).
Proof.
  destruct (C67_predicates (fun v => Ok (p v)) (fun a => Ok (proj a)) level x) as (-> & -> & ->).
  exists (forallb (fun a => p (proj a)) (leaves level x)), (existsb (fun a => p (proj a)) (leaves level x)),
    (negb (existsb (fun a => p (proj a)) (leaves level x))).
  change (fun a : A => let* v := Ok (proj a) in Ok (p v)) with (fun a : A => Ok (p (proj a))).
  rewrite (all_ofM_pure (fun a => p (proj a))), (find_ifM_pure (fun a => p (proj a))); do 3 (split; [reflexivity|]).
  split; [apply forallb_forall|]; split; [apply existsb_exists|].
  rewrite negb_true_iff; split.
  - intros H e I; destruct (p (proj e)) eqn:E; auto; rewrite <- H; symmetry; apply existsb_exists; eauto.
  - intros H; destruct (existsb _ _) eqn:E; auto; apply existsb_exists in E as (e & I & E); rewrite (H e I) in E; discriminate.
Qed.
Print Assumptions C67_predicates_total.

Theorem C67_find {A P} (eqb : P -> P -> bool) target (proj : A -> P) level (x : nest level A) :
  recursive_find eqb target proj level x = true <-> exists e, In e (leaves level x) /\ eqb target (proj e) = true.
Proof. rewrite recursive_find_flat; apply existsb_exists. Qed.
Print Assumptions C67_find.

(** a predicate that throws on 5 is not asked about 5 once an element fails *)
Example C67_predicates_case :
  recursive_all_of (fun n => if n =? 5 then Throw RuntimeError else Ok (n <? 4)) (fun n => Ok n) 2 sample = Ok false /\
  recursive_any_of (fun n => if n =? 5 then Throw RuntimeError else Ok (n =? 9)) (fun n => Ok n) 2 sample = Throw RuntimeError /\
  recursive_find Nat.eqb 4 (fun n => n) 2 sample = true.
Proof. repeat split. Qed.

(** ** C67: counting and size *)
(** Counts are size_t; the only assumption is that the number fits. *)
Theorem C67_count {A} (p : A -> bool) level (x : nest level A) r : fits (length (filter p (leaves level x))) ->
  recursive_count_if p level x r <-> r = length (filter p (leaves level x)).
Proof. apply recursive_count_if_flat. Qed.
Print Assumptions C67_count.

Theorem C67_count_target {A} (eqb : A -> A -> bool) target level (x : nest level A) r :
  fits (length (filter (fun a => eqb a target) (leaves level x))) ->
  recursive_count eqb level x target r <-> r = length (filter (fun a => eqb a target) (leaves level x)).
Proof. apply recursive_count_if_flat. Qed.
Print Assumptions C67_count_target.

Theorem C67_count_batch {A} (ps : list (A -> bool)) level (x : nest (S level) A) r :
  (forall p, In p ps -> fits (length (filter p (leaves (S level) x)))) ->
  batch_recursive_count_if ps level x r <-> r = map (fun p => length (filter p (leaves (S level) x))) ps.
Proof. apply batch_flat. Qed.
Print Assumptions C67_count_batch.

Theorem C67_size {A} d (x : nest d A) r : fits (length (leaves d x)) ->
  recursive_size d x r <-> r = length (leaves d x).
Proof. apply recursive_size_flat. Qed.
Print Assumptions C67_size.

Lemma fits_small n : n < 1000 -> fits n.
Proof. unfold fits, two64; lia. Qed.

Example C67_count_case : recursive_count Nat.eqb 2 sample 1 2 /\ recursive_size 2 sample 5 /\
  batch_recursive_count_if [Nat.eqb 1; Nat.even; fun _ => true] 1 sample [2; 1; 5].
Proof.
  split; [apply C67_count_target; [apply fits_small; vm_compute; lia|reflexivity]|].
  split; [apply C67_size; [apply fits_small; vm_compute; lia|reflexivity]|].
  apply C67_count_batch; [|reflexivity].
  intros p Hp; apply fits_small; cbn in Hp; intuition subst; vm_compute; lia.
Qed.

(** With an unwrap level the size is not a number of elements: the first container decides, and an empty one throws. *)
Theorem C67_size_level_refuted :
  (exists x : nest 2 nat, recursive_size_level 1 x = Ok 1 /\ length (leaves 2 x) = 5) /\
  (exists x : nest 2 nat, recursive_size_level 1 x = Throw OutOfRange /\ length (leaves 2 x) = 0).
Proof. split; [exists [[7]; [1; 2; 3; 4]]|exists []]; split; reflexivity. Qed.
Print Assumptions C67_size_level_refuted.

(** On data where all containers of a level have the same size, it is the size of the innermost ones. *)
Theorem C67_size_level_generated {A} (v : A) level times : 0 < times ->
  recursive_size_level level (n_dim_generator (S level) v times) = Ok times.
Proof.
  intros T; induction level as [|l IH]; [cbn; rewrite repeat_length; auto|].
  destruct times as [|t]; [lia|]; exact IH.
Qed.
Print Assumptions C67_size_level_generated.
Example C67_size_level_case : recursive_size_level 2 (n_dim_generator 3 true 4) = Ok 4.
Proof. apply C67_size_level_generated; lia. Qed.

(** ** C67: extrema *)
(** The first of the largest elements; [std::out_of_range] exactly if some container is empty. *)
Theorem C67_max {A} (lt : A -> A -> bool) d (x : nest d A) : strict_weak lt ->
  (no_empty d x -> exists m before after, recursive_max lt (fun a => a) d x = Ok m /\ leaves d x = before ++ m :: after /\
     (forall e, In e (leaves d x) -> lt m e = false) /\ (forall e, In e before -> lt e m = true)) /\
  (~ no_empty d x -> recursive_max lt (fun a => a) d x = Throw OutOfRange).
Proof.
  intros (I & T & N); rewrite recursive_max_rext; split; intros H.
  - destruct (rext_ok (max2 lt (fun a => a)) (fun a => a) (max2_assoc lt _ T N) (max2_idem lt _ I) d x H) as (m & E & G).
    rewrite map_id in G; destruct (leaves d x) as [|a l]; [discriminate|]; injection G as <-.
    destruct (fold_first_max lt a l I T N) as (l1 & l2 & E1 & H1 & H2); eexists _, l1, l2; split; [exact E|]; auto.
  - apply (rext_throws (max2 lt (fun a => a)) (fun a => a) (max2_assoc lt _ T N) (max2_idem lt _ I)); auto.
Qed.
Print Assumptions C67_max.

Theorem C67_min {A} (lt : A -> A -> bool) d (x : nest d A) : strict_weak lt ->
  (no_empty d x -> exists m before after, recursive_min lt (fun a => a) d x = Ok m /\ leaves d x = before ++ m :: after /\
     (forall e, In e (leaves d x) -> lt e m = false) /\ (forall e, In e before -> lt m e = true)) /\
  (~ no_empty d x -> recursive_min lt (fun a => a) d x = Throw OutOfRange).
Proof.
  intros (I & T & N).
  assert (W : strict_weak (fun a b => lt b a)) by (repeat split; eauto).
  destruct (C67_max (fun a b => lt b a) d x W) as [H1 H2].
  change (recursive_min lt (fun a => a) d x) with (recursive_max (fun a b => lt b a) (fun a => a) d x); auto.
Qed.
Print Assumptions C67_min.

(** with a projection: the projected values, compared by a second projection *)
Theorem C67_max_projection {A} (lt : A -> A -> bool) (proj : A -> A) d (x : nest d A) : strict_weak lt -> no_empty d x ->
  exists m, recursive_max lt proj d x = Ok m /\ vmax (fun a b => lt (proj a) (proj b)) (map proj (leaves d x)) = Ok m.
Proof.
  intros (I & T & N) H; rewrite recursive_max_rext.
  destruct (rext_ok (max2 lt proj) proj (max2_assoc lt _ T N) (max2_idem lt _ I) d x H) as (m & E & G).
  exists m; split; auto; unfold vmax; destruct (map proj (leaves d x)) as [|a l]; [discriminate|]; injection G as <-; auto.
Qed.
Print Assumptions C67_max_projection.
(** ... which is not what std::ranges::max of the flattened sequence with that projection gives *)
Theorem C67_projection_refuted : exists (x : nest 1 Z) (proj : Z -> Z),
  recursive_max Z.ltb proj 1 x = Ok (-3)%Z /\ vmax (fun a b => Z.ltb (proj a) (proj b)) (leaves 1 x) = Ok 1%Z.
Proof. exists [2; 1; 3]%Z, Z.opp; split; reflexivity. Qed.
Print Assumptions C67_projection_refuted.
(** and an empty inner container, harmless to the flattened sequence, throws *)
Theorem C67_empty_refuted : exists x : nest 2 nat,
  recursive_max Nat.ltb (fun a => a) 2 x = Throw OutOfRange /\ vmax Nat.ltb (leaves 2 x) = Ok 5.
Proof. exists sample; split; reflexivity. Qed.
Print Assumptions C67_empty_refuted.

Lemma nat_weak : strict_weak Nat.ltb.
Proof. repeat split; intros; try rewrite Nat.ltb_lt in *; try rewrite Nat.ltb_ge in *; lia. Qed.
Example C67_max_case : recursive_max Nat.ltb (fun a => a) 2 [[3; 1]; [4; 1; 5]] = Ok 5 /\ strict_weak Nat.ltb /\
  no_empty (A := nat) 2 [[3; 1]; [4; 1; 5]].
Proof. split; [reflexivity|]; split; [apply nat_weak|]; repeat constructor; discriminate. Qed.

(** recursive_minmax works on the flattened sequence; undefined exactly if that is empty (depth above one) *)
Theorem C67_minmax {A B} (lt : B -> B -> bool) (proj : A -> B) level (x : nest (S level) A) : strict_weak lt ->
  (leaves (S level) x = [] -> recursive_minmax lt proj level x = UB) /\
  (leaves (S level) x <> [] -> exists lo hi, recursive_minmax lt proj level x = Ok (lo, hi) /\
     In lo (leaves (S level) x) /\ In hi (leaves (S level) x) /\
     forall e, In e (leaves (S level) x) -> lt (proj e) (proj lo) = false /\ lt (proj hi) (proj e) = false).
Proof.
  intros (I & T & N).
  assert (E : recursive_minmax lt proj level x = vminmax (fun a b => lt (proj a) (proj b)) (leaves (S level) x)).
  { destruct level as [|l]; cbn [recursive_minmax].
    - f_equal; symmetry; apply flat_single.
    - unfold recursive_flatten_view; rewrite recursive_flatten_app; auto. }
  rewrite E; split; [intros ->; auto|].
  intros H; destruct (vminmax_ok (fun a b => lt (proj a) (proj b)) (fun a => I (proj a))
    (fun a b c => T (proj a) (proj b) (proj c)) (fun a b c => N (proj a) (proj b) (proj c)) _ H) as ([lo hi] & E' & P).
  exists lo, hi; split; auto.
Qed.
Print Assumptions C67_minmax.
Example C67_minmax_case : recursive_minmax Nat.ltb (fun a => a) 1 sample = Ok (1, 5).
Proof. reflexivity. Qed.

(** ** C67: folds and traversals *)
Theorem C67_reduce {A B} (f : B -> A -> res B) level (x : nest level A) init :
  recursive_reduce f level x init = for_list (leaves level x) (fun a b => f b a) init.
Proof. apply recursive_reduce_flat. Qed.
Print Assumptions C67_reduce.
Theorem C67_reduce_total {A B} (f : B -> A -> B) level (x : nest level A) init :
  recursive_reduce (fun b a => Ok (f b a)) level x init = Ok (fold_left f (leaves level x) init).
Proof. rewrite C67_reduce; apply (for_list_pure (fun a b => f b a)). Qed.
Print Assumptions C67_reduce_total.

Theorem C67_fold_right {A I} (f : A -> I -> res I) d (x : nest d A) init :
  recursive_fold_right_all f d x init = for_list (rev (leaves d x)) f init.
Proof. apply recursive_reverse_foreach_all_flat. Qed.
Print Assumptions C67_fold_right.
Theorem C67_fold_right_total {A I} (f : A -> I -> I) d (x : nest d A) init :
  recursive_fold_right_all (fun a i => Ok (f a i)) d x init = Ok (fold_right f init (leaves d x)).
Proof.
  rewrite C67_fold_right, for_list_pure, <- fold_left_rev_right, rev_involutive; auto.
Qed.
Print Assumptions C67_fold_right_total.
Theorem C67_foreach_all {A St} (f : A -> St -> res St) d (x : nest d A) s :
  recursive_foreach_all f d x s = for_list (leaves d x) f s.
Proof. apply recursive_foreach_all_flat. Qed.
Print Assumptions C67_foreach_all.

(** recursive_for_each calls the function once for each element, in order ... *)
Theorem C67_for_each {A St} (step : St -> A -> St) level op (x : nest (S level) A) :
  map snd (fst (recursive_for_each step level op x)) = leaves (S level) x.
Proof. apply recursive_for_each_visits. Qed.
Print Assumptions C67_for_each.
(** ... but on copies: what a stateful function object gathers (here, a sum) is lost in the returned object, and on
    nested containers the object starts afresh in every innermost container, unlike std::for_each on the flattened
    sequence, which returns the object after all calls *)
Theorem C67_for_each_state_refuted :
  snd (recursive_for_each Nat.add 0 0 [1; 2; 3]) = 0 /\ fold_left Nat.add (leaves 1 [1; 2; 3]) 0 = 6 /\
  fst (recursive_for_each Nat.add 1 0 [[1; 2]; [3]]) <> calls_from Nat.add 0 (leaves 2 [[1; 2]; [3]]).
Proof. repeat split; discriminate. Qed.
Print Assumptions C67_for_each_state_refuted.

Example C67_fold_case :
  recursive_reduce (fun b a => Ok (b - a)%Z) 2 [[1; 2]; []; [4]]%Z 10%Z = Ok 3%Z /\
  recursive_fold_right_all (fun a i => Ok (a - i)%Z) 2 [[1; 2]; []; [4]]%Z 10%Z = Ok (-7)%Z /\
  fst (recursive_for_each Nat.add 1 0 [[1; 2]; [3]]) = [(0, 1); (1, 2); (0, 3)].
Proof. repeat split. Qed.

(** ** C67: copies and transforms *)
Theorem C67_replace {A} (p : A -> bool) v level (x : nest (S level) A) :
  nest_rel (fun a b => b = if p a then v else a) (S level) x (recursive_replace_copy_if p v level x) /\
  leaves (S level) (recursive_replace_copy_if p v level x) = map (fun a => if p a then v else a) (leaves (S level) x).
Proof. split; [apply replace_rel|apply nest_rel_fun, replace_rel]. Qed.
Print Assumptions C67_replace.

(** removal and selection act in the innermost containers and keep the others, even if these become empty *)
Theorem C67_remove {A} (p : A -> bool) level (x : nest (S level) A) :
  inner_rel (fun l m => m = filter (fun a => negb (p a)) l) level x (recursive_remove_copy_if p level x) /\
  leaves (S level) (recursive_remove_copy_if p level x) = filter (fun a => negb (p a)) (leaves (S level) x).
Proof. apply remove_inner. Qed.
Print Assumptions C67_remove.
Theorem C67_remove_value {A} (eqb : A -> A -> bool) v level (x : nest (S level) A) e :
  (forall a b, eqb a b = true <-> a = b) ->
  In e (leaves (S level) (recursive_remove_copy eqb v level x)) <-> In e (leaves (S level) x) /\ e <> v.
Proof.
  intros H; unfold recursive_remove_copy; rewrite (proj2 (remove_inner _ _ _)), filter_In, negb_true_iff.
  split; intros [I N]; split; auto; [intros ->; rewrite (proj2 (H v v)) in N; congruence|].
  destruct (eqb e v) eqn:E; auto; apply H in E; contradiction.
Qed.
Print Assumptions C67_remove_value.
Theorem C67_copy {A} (p : A -> bool) level (x : nest (S level) A) :
  inner_rel (fun l m => m = filter p l) level x (recursive_copy_if p level x) /\
  leaves (S level) (recursive_copy_if p level x) = filter p (leaves (S level) x).
Proof. apply copy_inner. Qed.
Print Assumptions C67_copy.

(** with a function that can throw: a result of the same shape with transformed elements, or the first exception *)
Theorem C67_transform {A B} (f : A -> res B) level (x : nest level A) :
  (forall y, recursive_transform f level x = Ok y <-> nest_rel (fun a b => f a = Ok b) level x y) /\
  (let* y := recursive_transform f level x in Ok (leaves level y)) = mapM f (leaves level x).
Proof. split; [apply recursive_transform_ok|apply recursive_transform_flat]. Qed.
Print Assumptions C67_transform.

(** with a policy: the same for every order of the calls in every container *)
Theorem C67_transform_policy {A B} sg (b0 : B) (f : A -> B) level path (x : nest level A) :
  (forall p n, Permutation (sg p n) (seq 0 n)) ->
  exists y, recursive_transform_policy sg b0 f level path x = Ok y /\ nest_rel (fun a b => b = f a) level x y
  /\ recursive_transform (fun a => Ok (f a)) level x = Ok y.
Proof.
  intros H; exists (nmap f level x); rewrite recursive_transform_policy_ok; auto; split; auto; split; [apply nmap_rel|].
  apply recursive_transform_ok; assert (R := nmap_rel f level x).
  revert x R; generalize (nmap f level); induction level as [|l IH]; intros y x R; [cbn in *; congruence|].
  cbn [nest_rel] in *; revert R; generalize (y x); intros z R; induction R; constructor; auto.
  apply (IH (fun _ => y0)); auto.
Qed.
Print Assumptions C67_transform_policy.

(** of two containers: the shape of the first, elements combined place by place; defined exactly if every container of
    the second is at least as long as its counterpart (the excess is ignored) *)
Theorem C67_transform_two {A B C} (f : A -> B -> C) level (x : nest level A) (y : nest level B) :
  (within level x y -> exists z, recursive_transform2 f level x y = Ok z /\ nest_rel (fun _ _ => True) level x z /\
     forall p, leaf_at level z p =
       match leaf_at level x p, leaf_at level y p with Some a, Some b => Some (f a b) | _, _ => None end) /\
  (~ within level x y -> recursive_transform2 f level x y = UB).
Proof.
  split; intros H.
  - apply (recursive_transform2_within f) in H as (z & E); exists z; split; auto; apply recursive_transform2_at; auto.
  - destruct (recursive_transform2_total f level x y) as [E|E]; auto; elim H; apply (recursive_transform2_within f), E.
Qed.
Print Assumptions C67_transform_two.
Theorem C67_transform_short_refuted : exists (x y : nest 2 nat),
  length x = length y /\ recursive_transform2 Nat.add 2 x y = UB.
Proof. exists [[1; 2]], [[3]]; split; reflexivity. Qed.
Print Assumptions C67_transform_short_refuted.

Example C67_transform_case :
  recursive_transform (fun n => if n =? 9 then Throw RuntimeError else Ok (2 * n)) 2 sample = Ok [[6; 2]; []; [8; 2; 10]] /\
  recursive_transform2 Nat.add 2 [[1]; [2; 3]] [[10; 20]; [30; 40]; [50]] = Ok [[11]; [32; 43]] /\
  recursive_transform_policy (fun _ n => rev (seq 0 n)) 0 S 2 [] sample = Ok [[4; 2]; []; [5; 2; 6]] /\
  recursive_replace_copy_if Nat.even 0 1 sample = [[3; 1]; []; [0; 1; 5]] /\
  recursive_remove_copy Nat.eqb 1 1 sample = [[3]; []; [4; 5]] /\
  recursive_copy_if Nat.even 1 sample = [[]; []; [4]].
Proof. repeat split. Qed.

(** ** C67: flattening and generators *)
Theorem C67_flatten {A} level (x : nest (S level) A) out :
  recursive_flatten level x out = out ++ leaves (S level) x /\ recursive_flatten_view level x = leaves (S level) x.
Proof. unfold recursive_flatten_view; rewrite !recursive_flatten_app; auto. Qed.
Print Assumptions C67_flatten.

Fixpoint cube_shaped {A} (n d : nat) : nest d A -> Prop :=
  match d with O => fun _ => True | S d' => fun l => length (l : list (nest d' A)) = n /\ Forall (cube_shaped n d') l end.
Theorem C67_generator {A} dim (v : A) times :
  leaves dim (n_dim_generator dim v times) = repeat v (times ^ dim) /\ cube_shaped times dim (n_dim_generator dim v times).
Proof.
  split; [apply n_dim_leaves|].
  induction dim as [|d IH]; [exact I|]; cbn [n_dim_generator cube_shaped]; split; [apply repeat_length|].
  apply Forall_forall; intros e He; apply repeat_spec in He; subst; auto.
Qed.
Print Assumptions C67_generator.
Example C67_flatten_case : recursive_flatten 1 sample [8] = [8; 3; 1; 4; 1; 5] /\ n_dim_generator 2 7 2 = [[7; 7]; [7; 7]].
Proof. split; reflexivity. Qed.

(** ** C68 *)
Definition associative {T} (op : T -> T -> T) : Prop := forall a b c, op a (op b c) = op (op a b) c.
Definition commutative {T} (op : T -> T -> T) : Prop := forall a b, op a b = op b a.

(** If the value-initialised T{} is neutral for the operation, every order of evaluation gives the flat fold. *)
Theorem C68_neutral {A T} (zero : T) op (f : A -> T) d (x : nest d A) init r :
  associative op -> commutative op -> (forall a, op a zero = a) ->
  recursive_transform_reduce zero op f d x init r <-> r = fold_left op (map f (leaves d x)) init.
Proof.
  intros As Co Ze.
  assert (E : forall r, recursive_transform_reduce zero op f d x init r -> r = fold_left op (map f (leaves d x)) init).
  { intros r' H; apply rtr_exact in H; auto; rewrite G_zero in H; auto; cbn [fold1] in H; congruence. }
  split; auto; intros ->; destruct (rtr_exists zero op f d x init) as [r' H]; rewrite <- (E r' H); auto.
Qed.
Print Assumptions C68_neutral.
Theorem C68_level {A T} (zero : T) op (f : A -> T) level (x : nest (S level) A) init r :
  associative op -> commutative op -> (forall a, op a zero = a) ->
  recursive_transform_reduce_level zero op f (S level) x init r <-> r = fold_left op (map f (leaves (S level) x)) init.
Proof.
  intros As Co Ze.
  assert (E : forall r, recursive_transform_reduce_level zero op f (S level) x init r -> r = fold_left op (map f (leaves (S level) x)) init).
  { intros r' H; apply rtr_level_exact in H; auto; rewrite G_zero in H; auto; cbn [fold1] in H; congruence. }
  split; auto; intros ->; destruct (rtr_level_exists zero op f (S level) x init) as [r' H]; rewrite <- (E r' H); auto.
Qed.
Print Assumptions C68_level.
(** With one level the value T{} plays no part. *)
Theorem C68_level_one {A T} (zero : T) op (f : A -> T) (x : list A) init r : associative op -> commutative op ->
  recursive_transform_reduce_level zero op f 1 x init r <-> r = fold_left op (map f x) init.
Proof.
  intros As Co.
  assert (E : forall r, recursive_transform_reduce_level zero op f 1 x init r -> r = fold_left op (map f x) init).
  { intros r' H; apply rtr_level_exact in H; auto; cbn [leaves inner repeat app fold1] in H; rewrite flat_single in H; congruence. }
  split; auto; intros ->; destruct (rtr_level_exists zero op f 1 x init) as [r' H]; rewrite <- (E r' H); auto.
Qed.
Print Assumptions C68_level_one.
(** For any commutative and associative operation: T{} is mixed in once for every element and every inner container
    (exhaustive version), once for every inner container (unwrap level). *)
Fixpoint nodes {A} (d : nat) : nest d A -> nat :=
  match d with O => fun _ => 1 | S d' => fun l => 1 + list_sum (map (nodes d') (l : list (nest d' A))) end.
Fixpoint containers {A} (d : nat) : nest d A -> nat :=
  match d with O => fun _ => 0 | S d' => fun l => 1 + list_sum (map (containers d') (l : list (nest d' A))) end.
Lemma below_nodes {A} d (x : nest d A) : nodes d x = S (below d x).
Proof.
  revert x; induction d as [|d IH]; intros x; auto; cbn [nodes below plus]; do 2 f_equal; apply map_ext; auto.
Qed.
Lemma inner_containers {A} d (x : nest (S d) A) : containers (S d) x = S (inner d x).
Proof.
  revert x; induction d as [|d IH]; intros x.
  - cbn; f_equal; change (nest 1 A) with (list A) in x; induction x; cbn; auto.
  - change (containers (S (S d)) x) with (1 + list_sum (map (containers (S d)) (x : list (nest (S d) A)))).
    cbn [inner plus]; do 2 f_equal; apply map_ext; auto.
Qed.
Theorem C68_exact {A T} (zero : T) op (f : A -> T) d (x : nest d A) init r : associative op -> commutative op ->
  recursive_transform_reduce zero op f d x init r <->
  r = fold_left op (repeat zero (nodes d x - 1) ++ map f (leaves d x)) init.
Proof.
  intros As Co; rewrite below_nodes; cbn [Nat.sub]; rewrite Nat.sub_0_r.
  assert (E : forall r, recursive_transform_reduce zero op f d x init r ->
    r = fold_left op (repeat zero (below d x) ++ map f (leaves d x)) init).
  { intros r' H; apply rtr_exact in H; auto; cbn [fold1] in H; congruence. }
  split; auto; intros ->; destruct (rtr_exists zero op f d x init) as [r' H]; rewrite <- (E r' H); auto.
Qed.
Print Assumptions C68_exact.
Theorem C68_level_exact {A T} (zero : T) op (f : A -> T) level (x : nest (S level) A) init r :
  associative op -> commutative op ->
  recursive_transform_reduce_level zero op f (S level) x init r <->
  r = fold_left op (repeat zero (containers (S level) x - 1) ++ map f (leaves (S level) x)) init.
Proof.
  intros As Co; rewrite inner_containers; cbn [Nat.sub]; rewrite Nat.sub_0_r.
  assert (E : forall r, recursive_transform_reduce_level zero op f (S level) x init r ->
    r = fold_left op (repeat zero (inner level x) ++ map f (leaves (S level) x)) init).
  { intros r' H; apply rtr_level_exact in H; auto; cbn [fold1] in H; congruence. }
  split; auto; intros ->; destruct (rtr_level_exists zero op f (S level) x init) as [r' H]; rewrite <- (E r' H); auto.
Qed.
Print Assumptions C68_level_exact.

Lemma mult_assoc' : associative Z.mul. Proof. intros a b c; ring. Qed.
Lemma mult_comm' : commutative Z.mul. Proof. intros a b; ring. Qed.
(** a product over a vector is zero; the largest of negative numbers is zero *)
Theorem C68_product_refuted : exists (x : nest 1 Z) init,
  (forall r, recursive_transform_reduce 0%Z Z.mul (fun a => a) 1 x init r -> r = 0%Z) /\
  fold_left Z.mul (leaves 1 x) init = 24%Z.
Proof.
  exists [2; 3; 4]%Z, 1%Z; split; auto; intros r H; apply (C68_exact _ _ _ 1) in H; [exact H|apply mult_assoc'|apply mult_comm'].
Qed.
Print Assumptions C68_product_refuted.
Theorem C68_level_product_refuted : exists (x : nest 2 Z) init,
  (forall r, recursive_transform_reduce_level 0%Z Z.mul (fun a => a) 2 x init r -> r = 0%Z) /\
  fold_left Z.mul (leaves 2 x) init = 24%Z.
Proof.
  exists [[2; 3]; [4]]%Z, 1%Z; split; auto; intros r H; apply (C68_level_exact _ _ _ 1) in H; [exact H|apply mult_assoc'|apply mult_comm'].
Qed.
Print Assumptions C68_level_product_refuted.
Theorem C68_max_refuted : exists (x : nest 1 Z) init,
  (forall r, recursive_transform_reduce 0%Z Z.max (fun a => a) 1 x init r -> r = 0%Z) /\
  fold_left Z.max (leaves 1 x) init = (-2)%Z.
Proof.
  exists [-3; -2; -4]%Z, (-9)%Z; split; auto; intros r H; apply (C68_exact _ _ _ 1) in H; [exact H| |].
  - intros a b c; lia.
  - intros a b; lia.
Qed.
Print Assumptions C68_max_refuted.
(** the unwrap level zero ignores the initial value *)
Theorem C68_level_zero_refuted : exists (x init : Z),
  (forall r, recursive_transform_reduce_level 0%Z Z.add (fun a => a) 0 x init r -> r = 5%Z) /\ (init + x = 7)%Z.
Proof. exists 5%Z, 2%Z; split; auto. Qed.
Print Assumptions C68_level_zero_refuted.
(** an operation that is associative but not commutative may be evaluated in another order (concatenation) *)
Theorem C68_order_refuted : exists (x : nest 1 string), associative String.append /\
  recursive_transform_reduce EmptyString String.append (fun a => a) 1 x EmptyString "ba"%string /\
  fold_left String.append (leaves 1 x) EmptyString = "ab"%string.
Proof.
  exists ["a"; "b"]%string; split; [intros a b c; induction a; cbn; congruence|]; split; auto.
  exists ["a"; "b"]%string; split; [repeat constructor|].
  assert (E : "ba"%string = String.append "b" (String.append EmptyString "a")) by reflexivity; rewrite E.
  apply (red_split _ _ ["b"]%string [EmptyString; "a"]%string).
  - apply (Permutation_app_comm [EmptyString; "a"%string] ["b"%string]).
  - constructor.
  - apply (red_split _ _ [EmptyString] ["a"]%string); [apply Permutation_refl|constructor|constructor].
Qed.
Print Assumptions C68_order_refuted.

Example C68_case : recursive_transform_reduce 0%Z Z.add (fun a => a * a)%Z 2 [[1; 2]; []; [3]]%Z 100%Z 114%Z /\
  nodes (A := Z) 2 [[1; 2]; []; [3]]%Z = 7 /\ containers (A := Z) 2 [[1; 2]; []; [3]]%Z = 4.
Proof.
  split; [apply C68_neutral; [intros a b c; ring|intros a b; ring|intros a; ring|reflexivity]|split; reflexivity].
Qed.

(** ** C83: statistics of containers *)
(** the mean times the number of elements is their sum; the variance is the mean squared deviation, never negative, zero
    exactly for constant data, and the mean of the squares less the squared mean *)
Theorem C83_mean (l : list R) :
  (l = [] -> arithmetic_mean l = Throw LogicError) /\
  (l <> [] -> exists m, arithmetic_mean l = Ok m /\ (m * INR (length l) = fold_right Rplus 0 l)%R).
Proof.
  split; [intros ->; auto|]; intros H; destruct l as [|a l]; [congruence|].
  eexists; split; [reflexivity|]; rewrite fold_plus; unfold rsuml; field; apply not_0_INR; discriminate.
Qed.
Print Assumptions C83_mean.
Theorem C83_variance (l : list R) r :
  (l = [] -> population_variance l r <-> r = Throw LogicError) /\
  (l <> [] -> population_variance l r -> exists m v, arithmetic_mean l = Ok m /\ r = Ok v /\
     (v * INR (length l) = fold_right Rplus 0 (map (fun x => (x - m) * (x - m)) l))%R /\
     (v * INR (length l) = fold_right Rplus 0 (map (fun x => x * x) l) - INR (length l) * (m * m))%R /\
     (0 <= v)%R /\ (v = 0%R <-> forall x, In x l -> x = m)).
Proof.
  split; [intros ->; cbn; tauto|]; intros H; destruct (proj2 (C83_mean l) H) as (m & E & M); unfold population_variance.
  rewrite E; intros (s & Rs & ->); apply (rtr_real _ 1) in Rs; cbn [leaves] in Rs; rewrite flat_single in Rs.
  assert (N : (INR (length l) <> 0)%R) by (destruct l; [congruence|]; apply not_0_INR; discriminate).
  assert (NP : (0 < INR (length l))%R) by (assert (X := pos_INR (length l)); lra).
  assert (Q : forall c, map (fun x => (x - c) ^ 2)%R l = map (fun x => (x - c) * (x - c))%R l)
    by (intros c; apply map_ext; intros; ring).
  assert (Q0 : map (fun x => x ^ 2)%R l = map (fun x => x * x)%R l) by (apply map_ext; intros; ring).
  assert (D := sum_sq_dev l m); rewrite Q, Q0 in D; fold (rsuml l) in M; unfold rsuml in D at 1 2.
  exists m, (s / INR (length l))%R; split; auto; split; auto.
  assert (V : (s / INR (length l) * INR (length l) = s)%R) by (field; auto).
  rewrite V; subst s; split; [unfold rsuml; rewrite Q; auto|]; split.
  - rewrite <- Q in D; unfold rsuml at 1; rewrite D, <- M; ring.
  - assert (P := sum_sq_pos l m); split; [apply Rmult_le_pos; auto; apply Rlt_le, Rinv_0_lt_compat; auto|].
    split.
    + intros Z; rewrite Z, Rmult_0_l in V; symmetry in V; apply sum_sq_zero in V; rewrite Forall_forall in V; auto.
    + intros F; replace (map (fun x => (x - m) ^ 2) l)%R with (map (fun _ => 0%R) l).
      * replace (rsuml (map (fun _ => 0%R) l)) with 0%R; [field; auto|].
        clear; unfold rsuml; induction l; cbn; lra.
      * apply map_ext_in; intros a I; rewrite (F a I); ring.
Qed.
Print Assumptions C83_variance.
Theorem C83_variance_exists (l : list R) : exists r, population_variance l r.
Proof.
  unfold population_variance; destruct (arithmetic_mean l) as [m| |]; eauto.
  destruct (rtr_exists 0%R Rplus (fun element => (element - m) ^ 2)%R 1 l 0%R) as [s H]; eauto.
Qed.
Print Assumptions C83_variance_exists.
Theorem C83_deviation (l : list R) r : l <> [] -> population_standard_deviation l r ->
  exists sd v, r = Ok sd /\ population_variance l (Ok v) /\ (0 <= sd)%R /\ (sd * sd = v)%R.
Proof.
  intros H S; assert (S' : exists v, population_variance l v /\ r = let* x := v in Ok (sqrt x)) by (destruct l; [congruence|exact S]).
  destruct S' as (v & V & ->); destruct (proj2 (C83_variance l v) H V) as (m & x & _ & -> & _ & _ & P & _).
  exists (sqrt x), x; repeat split; auto; [apply sqrt_pos|apply sqrt_sqrt; auto].
Qed.
Print Assumptions C83_deviation.
Theorem C83_deviation_empty r : population_standard_deviation [] r <-> r = Throw LogicError.
Proof. cbn; tauto. Qed.
Print Assumptions C83_deviation_empty.

(** sums of squares and the root mean square, of any nesting; no exception, but not a number on empty data *)
Theorem C83_square_sum d (x : nest d R) r : square_sum d x r <-> r = fold_right Rplus 0%R (map (fun a => a ^ 2)%R (leaves d x)).
Proof. apply rtr_real. Qed.
Print Assumptions C83_square_sum.
Theorem C83_root_mean_square d (x : nest d R) r : fits (length (leaves d x)) -> root_mean_square d x r ->
  (leaves d x = [] /\ r = None) \/
  exists q, r = Some q /\ (0 <= q)%R /\
    (q * q * INR (length (leaves d x)) = fold_right Rplus 0 (map (fun a => a ^ 2) (leaves d x)))%R.
Proof.
  intros F (s & n & Sq & N & ->); apply C67_size in N; auto; apply C83_square_sum in Sq; subst n.
  destruct (leaves d x) as [|a l] eqn:E; [left; auto|right].
  cbn [length Nat.eqb]; eexists; split; [reflexivity|]; split; [apply sqrt_pos|].
  assert (N : (0 < INR (S (length l)))%R) by (apply lt_0_INR; lia).
  assert (P : (0 <= s)%R).
  { rewrite Sq; assert (Q := sum_sq_pos (a :: l) 0); unfold rsuml in Q.
    replace (map (fun a => a ^ 2)%R (a :: l)) with (map (fun a => (a - 0) ^ 2)%R (a :: l)); auto.
    apply map_ext; intros; ring. }
  rewrite sqrt_sqrt; [|apply Rmult_le_pos; auto; apply Rlt_le, Rinv_0_lt_compat; auto].
  rewrite <- Sq; field; lra.
Qed.
Print Assumptions C83_root_mean_square.

(** of signed integers: nothing is wrong while the values are not negative and the sum fits ... *)
Theorem C83_mean_signed_partial lo hi (l : list Z) : (lo <= 0)%Z -> (hi < two64)%Z -> l <> [] ->
  Forall (fun x => (0 <= x)%Z) l -> (fold_right Z.add 0 l <= hi)%Z ->
  arithmetic_mean_signed lo hi l = Ok (fold_right Z.add 0 l / Z.of_nat (length l))%Z.
Proof.
  intros Lo Hi N F B.
  assert (G : forall s, (0 <= s)%Z -> (s + fold_right Z.add 0 l <= hi)%Z ->
     fold_left (fun s x => plus_signed lo hi s (Ok x)) l (Ok s) = Ok (s + fold_right Z.add 0 l)%Z).
  { clear N B; induction F as [|a l Ha F IH]; intros s Hs B; cbn [fold_left fold_right] in *; [f_equal; lia|].
    assert (P : (0 <= fold_right Z.add 0 l)%Z) by (clear -F; induction F; cbn; lia).
    unfold plus_signed at 2; cbn [bind].
    destruct ((lo <=? s + a)%Z && (s + a <=? hi)%Z) eqn:C; [|lia].
    rewrite IH; try lia; f_equal; lia. }
  assert (P : (0 <= fold_right Z.add 0 l)%Z) by (clear -F; induction F; cbn; lia).
  unfold arithmetic_mean_signed; destruct l as [|a l]; [congruence|].
  rewrite G; try lia; cbn [bind]; rewrite Z.add_0_l; unfold mean_div; cbn [length Nat.eqb].
  unfold w64; rewrite Z.mod_small; auto; unfold two64 in *; lia.
Qed.
Print Assumptions C83_mean_signed_partial.
(** ... but a negative sum is converted to an unsigned number before it is divided *)
Theorem C83_mean_signed_refuted : exists l : list Z,
  arithmetic_mean_signed (-2147483648) 2147483647 l = Ok 9223372036854775807%Z /\
  (fold_right Z.add 0 l / Z.of_nat (length l) = -1)%Z.
Proof. exists [-1; -1]%Z; split; reflexivity. Qed.
Print Assumptions C83_mean_signed_refuted.

Example C83_case : exists m, arithmetic_mean [1; 2; 6]%R = Ok m /\ m = 3%R /\
  arithmetic_mean_signed (-128) 127 [1; 2; 7]%Z = Ok 3%Z.
Proof. eexists; repeat split; cbn; lra. Qed.

(** ** C84: sums of components *)
(** With an associative and commutative operation the policy version gives what the sequential loop gives. *)
Theorem C84_sum {P T} (zero : T) op (sel : P -> T) (l : list P) r : associative op -> commutative op ->
  sum_element_policy zero op sel l r <-> r = sum_element zero op sel l.
Proof.
  intros As Co; unfold sum_element_policy, sum_element.
  assert (E : forall a, fold_left (fun sum p => op sum (sel p)) l a = fold_left op (map sel l) a).
  { induction l as [|p l IH]; intros a; cbn; auto. }
  assert (G : forall r, reduces op (zero :: map sel l) r -> r = fold_left (fun sum p => op sum (sel p)) l zero).
  { intros r' H; apply reduces_G in H; auto; rewrite E; cbn [fold1] in H; congruence. }
  split; auto; intros ->; destruct (reduces_exists op (zero :: map sel l)) as [r' H]; [discriminate|].
  rewrite <- (G r' H); auto.
Qed.
Print Assumptions C84_sum.
(** the components of the pairs, and only those, are summed *)
Theorem C84_sum_is {P} (sel : P -> Z) (l : list P) : sum_element 0%Z Z.add sel l = fold_right Z.add 0%Z (map sel l).
Proof.
  unfold sum_element.
  assert (G : forall s, fold_left (fun sum p => (sum + sel p)%Z) l s = (s + fold_right Z.add 0 (map sel l))%Z).
  { induction l as [|p l IH]; intros s; cbn; [ring|rewrite IH; ring]. }
  rewrite G; ring.
Qed.
Print Assumptions C84_sum_is.
(** with another operation the two versions can differ *)
Theorem C84_sum_refuted : exists (l : list (Z * Z)) r,
  sum_element_policy 0%Z Z.sub fst l r /\ r <> sum_element 0%Z Z.sub fst l.
Proof.
  exists [(1, 0); (2, 0)]%Z, (0 - (1 - 2))%Z; split; [|discriminate].
  apply (red_split _ _ [0%Z] [1; 2]%Z); [apply Permutation_refl|constructor|].
  apply (red_split _ _ [1%Z] [2%Z]); [apply Permutation_refl|constructor|constructor].
Qed.
Print Assumptions C84_sum_refuted.
Example C84_case : sum_element 0%Z Z.add snd [(1, 10); (2, 20)]%Z = 30%Z /\
  sum_element_policy 0%Z Z.add snd [(1, 10); (2, 20)]%Z 30%Z.
Proof. split; [reflexivity|]; apply C84_sum; [intros a b c; ring|intros a b; ring|reflexivity]. Qed.
