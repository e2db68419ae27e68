(** NestedProofs.v - specification vocabulary for nested containers, and the lemmas of PropNested.v. *)
From Coq Require Import Reals Lra Lia ZifyBool ZifyNat.
From Verif Require Import Base HistModel HistProofs ReduceModel ReduceProofs NestedModel.
Open Scope nat_scope.

(** ** vocabulary *)
(** the elements at the given depth, in order *)
Fixpoint leaves {A} (d : nat) : nest d A -> list A :=
  match d with O => fun x => [x] | S d' => fun l => flat_map (leaves d') (l : list (nest d' A)) end.
(** same shape, corresponding elements related *)
Fixpoint nest_rel {A B} (R : A -> B -> Prop) (d : nat) : nest d A -> nest d B -> Prop :=
  match d with O => R | S d' => fun l m => Forall2 (nest_rel R d') l m end.
(** same containers down to the innermost ones, which are related *)
Fixpoint inner_rel {A B} (R : list A -> list B -> Prop) (d : nat) : nest (S d) A -> nest (S d) B -> Prop :=
  match d with O => R | S d' => fun l m => Forall2 (inner_rel R d') l m end.
(** no container is empty *)
Fixpoint no_empty {A} (d : nat) : nest d A -> Prop :=
  match d with O => fun _ => True | S d' => fun l => l <> [] /\ Forall (no_empty d') (l : list (nest d' A)) end.
(** the element at a path of indices *)
Fixpoint leaf_at {A} (d : nat) : nest d A -> list nat -> option A :=
  match d with
  | O => fun x p => match p with [] => Some x | _ => None end
  | S d' => fun l p => match p with
                       | [] => None
                       | i :: q => match nth_error (l : list (nest d' A)) i with Some e => leaf_at d' e q | None => None end
                       end
  end.
(** every container of the first has, at the same place, a container of the second at least as long *)
Fixpoint within {A B} (d : nat) : nest d A -> nest d B -> Prop :=
  match d with
  | O => fun _ _ => True
  | S d' => fun l m => exists m1 m2, (m : list (nest d' B)) = m1 ++ m2 /\ Forall2 (within d') l m1
  end.

Lemma flat_map_app' {A B} (f : A -> list B) l m : flat_map f (l ++ m) = flat_map f l ++ flat_map f m.
Proof. induction l; cbn; auto; rewrite IHl, app_assoc; auto. Qed.

Lemma Forall2_fun {A B} (R : A -> B -> Prop) (f : A -> B) l m :
  (forall a b, In a l -> R a b <-> b = f a) -> Forall2 R l m <-> m = map f l.
Proof.
  intros H; split.
  - intros F; induction F; cbn; auto; rewrite IHF; [f_equal; apply H; cbn; auto|intros; apply H; cbn; auto].
  - intros ->; induction l; cbn; constructor; [apply H; cbn; auto|apply IHl; intros; apply H; cbn; auto].
Qed.

(** ** predicates *)
Lemma all_ofM_app {A} (p : A -> res bool) l m :
  all_ofM p (l ++ m) = let* b := all_ofM p l in if b then all_ofM p m else Ok false.
Proof. induction l; cbn; auto; destruct (p a) as [[|]| |]; cbn; auto. Qed.
Lemma find_ifM_app {A} (p : A -> res bool) l m :
  find_ifM p (l ++ m) = let* b := find_ifM p l in if b then Ok true else find_ifM p m.
Proof. induction l; cbn; auto; destruct (p a) as [[|]| |]; cbn; auto. Qed.

Lemma all_ofM_flat {A B} (f : A -> list B) (p : B -> res bool) (q : A -> res bool) l :
  (forall a, q a = all_ofM p (f a)) -> all_ofM q l = all_ofM p (flat_map f l).
Proof. intros H; induction l; cbn; auto; rewrite all_ofM_app, H, IHl; auto. Qed.
Lemma find_ifM_flat {A B} (f : A -> list B) (p : B -> res bool) (q : A -> res bool) l :
  (forall a, q a = find_ifM p (f a)) -> find_ifM q l = find_ifM p (flat_map f l).
Proof. intros H; induction l; cbn; auto; rewrite find_ifM_app, H, IHl; auto. Qed.

Lemma recursive_all_of_flat {A P} (p : P -> res bool) (proj : A -> res P) L x :
  recursive_all_of p proj L x = all_ofM (fun a => let* v := proj a in p v) (leaves L x).
Proof.
  revert x; induction L as [|L IH]; intros x.
  - cbn; destruct (proj x) as [v| |]; cbn; auto; destruct (p v) as [[|]| |]; auto.
  - cbn [recursive_all_of leaves]; apply all_ofM_flat, IH.
Qed.
Lemma recursive_find_if_flat {A P} (p : P -> res bool) (proj : A -> res P) L x :
  recursive_find_if p proj L x = find_ifM (fun a => let* v := proj a in p v) (leaves L x).
Proof.
  revert x; induction L as [|L IH]; intros x.
  - cbn; destruct (proj x) as [v| |]; cbn; auto; destruct (p v) as [[|]| |]; auto.
  - cbn [recursive_find_if leaves]; apply find_ifM_flat, IH.
Qed.

Lemma all_ofM_pure {A} (p : A -> bool) l : all_ofM (fun a => Ok (p a)) l = Ok (forallb p l).
Proof. induction l; cbn; auto; destruct (p a); cbn; auto. Qed.
Lemma find_ifM_pure {A} (p : A -> bool) l : find_ifM (fun a => Ok (p a)) l = Ok (existsb p l).
Proof. induction l; cbn; auto; destruct (p a); cbn; auto. Qed.

Lemma existsb_flat {A B} (f : A -> list B) (p : B -> bool) (q : A -> bool) l :
  (forall a, q a = existsb p (f a)) -> existsb q l = existsb p (flat_map f l).
Proof. intros H; induction l; cbn; auto; rewrite existsb_app, H, IHl; auto. Qed.
Lemma recursive_find_flat {A P} (eqb : P -> P -> bool) t (proj : A -> P) L x :
  recursive_find eqb t proj L x = existsb (fun a => eqb t (proj a)) (leaves L x).
Proof.
  revert x; induction L as [|L IH]; intros x; [cbn; rewrite orb_false_r; auto|].
  cbn [recursive_find leaves]; apply existsb_flat, IH.
Qed.

(** ** counting *)
Lemma fits_le n m : n <= m -> fits m -> fits n.
Proof. unfold fits; lia. Qed.

Lemma list_sum_in n l : In n l -> n <= list_sum l.
Proof.
  induction l as [|a l IH]; [intros []|]; change (list_sum (a :: l)) with (a + list_sum l).
  intros [->|H]; [|apply IH in H]; lia.
Qed.

Lemma transform_reduces_uadd {E} (f : E -> nat -> Prop) (g : E -> nat) l r :
  (forall e, fits (g e) -> forall n, f e n <-> n = g e) -> fits (list_sum (map g l)) ->
  transform_reduces uadd 0 f l r <-> r = list_sum (map g l).
Proof.
  intros H F.
  assert (G : forall vs, Forall2 f l vs <-> vs = map g l).
  { intros vs; apply Forall2_fun; intros a b I; apply H; eapply fits_le, F; apply list_sum_in, in_map, I. }
  split.
  - intros (vs & V & R); apply G in V; subst vs; apply reduces_total in R; auto.
  - intros ->; exists (map g l); split; [apply G; auto|].
    destruct (reduces_exists uadd (0 :: map g l)) as [r R]; [discriminate|].
    assert (X := reduces_total (0 :: map g l) r F R); cbn [list_sum fold_right] in X; change (fold_right Nat.add 0 ?x) with (list_sum x) in X; rewrite Nat.add_0_l in X; rewrite <- X; auto.
Qed.

Definition count_of {A} (p : A -> bool) (l : list A) : nat := length (filter p l).
Lemma count_flat {A B} (f : A -> list B) p l : count_of p (flat_map f l) = list_sum (map (fun a => count_of p (f a)) l).
Proof. unfold count_of; induction l; cbn; auto; rewrite filter_app, app_length, IHl; auto. Qed.
Lemma count_loop {A} (p : A -> bool) l n : fold_left (fun n x => if p x then n + 1 else n) l n = n + count_of p l.
Proof.
  unfold count_of; revert n; induction l; intros n; cbn; auto; rewrite IHl; destruct (p a); cbn; lia.
Qed.

Lemma flat_single {A} (l : list A) : flat_map (fun x => [x]) l = l.
Proof. induction l; cbn; congruence. Qed.

Lemma recursive_count_if_flat {A} (p : A -> bool) L x r :
  fits (count_of p (leaves L x)) -> recursive_count_if p L x r <-> r = count_of p (leaves L x).
Proof.
  revert x r; induction L as [|L IH]; intros x r F.
  - cbn; unfold count_of; cbn; destruct (p x); cbn; tauto.
  - cbn [recursive_count_if leaves] in *; rewrite count_flat in *; apply transform_reduces_uadd; auto.
Qed.
Lemma recursive_count_if1_flat {A} (p : A -> bool) L x r :
  fits (count_of p (leaves (S L) x)) -> recursive_count_if1 p L x r <-> r = count_of p (leaves (S L) x).
Proof.
  revert x r; induction L as [|L IH]; intros x r F.
  - assert (X : leaves 1 x = (x : list A)) by apply flat_single.
    rewrite X; cbn [recursive_count_if1]; rewrite count_loop, Nat.add_0_l; apply iff_refl.
  - cbn [recursive_count_if1]; change (leaves (S (S L)) x) with (flat_map (leaves (S L)) (x : list (nest (S L) A))) in *.
    rewrite count_flat in *; apply transform_reduces_uadd; auto.
Qed.

Lemma batch_flat {A} (ps : list (A -> bool)) L x r :
  (forall p, In p ps -> fits (count_of p (leaves (S L) x))) ->
  batch_recursive_count_if ps L x r <-> r = map (fun p => count_of p (leaves (S L) x)) ps.
Proof.
  revert r; induction ps as [|p ps IH]; intros r F; [cbn; tauto|].
  cbn [batch_recursive_count_if map]; split.
  - intros (n & rest & C & B & ->); apply recursive_count_if1_flat in C; [|apply F; cbn; auto].
    apply IH in B; [|intros; apply F; cbn; auto]; subst; auto.
  - intros ->; eexists _, _; split; [apply recursive_count_if1_flat; [apply F; cbn; auto|reflexivity]|].
    split; [apply IH; [intros; apply F; cbn; auto|reflexivity]|auto].
Qed.

Lemma recursive_size_flat {A} d (x : nest d A) r :
  fits (length (leaves d x)) -> recursive_size d x r <-> r = length (leaves d x).
Proof.
  revert x r; induction d as [|[|d] IH]; intros x r F.
  - cbn; tauto.
  - cbn [recursive_size leaves]; rewrite flat_single; tauto.
  - change (recursive_size (S (S d)) x r) with (transform_reduces uadd 0 (recursive_size (S d)) (x : list (nest (S d) A)) r).
    change (leaves (S (S d)) x) with (flat_map (leaves (S d)) (x : list (nest (S d) A))) in *.
    assert (E : forall l : list (nest (S d) A), length (flat_map (leaves (S d)) l) = list_sum (map (fun e => length (leaves (S d) e)) l)).
    { intros l; induction l; auto; cbn [flat_map map list_sum]; rewrite app_length, IHl; auto. }
    rewrite E in F |- *; apply transform_reduces_uadd; auto.
Qed.

(** ** folds *)
Lemma for_list_app' {I S} (f : I -> S -> res S) l m s :
  for_list (l ++ m) f s = let* s' := for_list l f s in for_list m f s'.
Proof. revert s; induction l; intros s; cbn; auto; destruct (f a s); cbn; auto. Qed.
Lemma for_list_flat {I J S} (g : I -> list J) (f : J -> S -> res S) (h : I -> S -> res S) l s :
  (forall i s, h i s = for_list (g i) f s) -> for_list l h s = for_list (flat_map g l) f s.
Proof.
  intros H; revert s; induction l; intros s; cbn; auto; rewrite for_list_app', H.
  destruct (for_list (g a) f s); cbn; auto.
Qed.

Lemma recursive_reduce_flat {A B} (f : B -> A -> res B) L x init :
  recursive_reduce f L x init = for_list (leaves L x) (fun a b => f b a) init.
Proof.
  revert x init; induction L as [|L IH]; intros x init; [cbn; destruct (f init x); auto|].
  cbn [recursive_reduce leaves]; apply for_list_flat; auto.
Qed.
Lemma recursive_foreach_all_flat {A St} (f : A -> St -> res St) d x s :
  recursive_foreach_all f d x s = for_list (leaves d x) f s.
Proof.
  revert x s; induction d as [|d IH]; intros x s; [cbn; destruct (f x s); auto|].
  cbn [recursive_foreach_all leaves]; apply for_list_flat; auto.
Qed.

Lemma rev_flat_map {A B} (f : A -> list B) l : rev (flat_map f l) = flat_map (fun a => rev (f a)) (rev l).
Proof.
  induction l; cbn; auto; rewrite rev_app_distr, IHl, flat_map_app'; cbn; rewrite app_nil_r; auto.
Qed.
Lemma recursive_reverse_foreach_all_flat {A St} (f : A -> St -> res St) d x s :
  recursive_reverse_foreach_all f d x s = for_list (rev (leaves d x)) f s.
Proof.
  revert x s; induction d as [|d IH]; intros x s; [cbn; destruct (f x s); auto|].
  cbn [recursive_reverse_foreach_all leaves]; rewrite rev_flat_map; apply for_list_flat; auto.
Qed.
Lemma for_list_pure {I S} (f : I -> S -> S) l s : for_list l (fun i s => Ok (f i s)) s = Ok (fold_left (fun s i => f i s) l s).
Proof. revert s; induction l; intros; cbn; auto. Qed.

Lemma calls_snd {A St} (step : St -> A -> St) s l : map snd (calls_from step s l) = l.
Proof. revert s; induction l; intros; cbn; congruence. Qed.
Lemma recursive_for_each_visits {A St} (step : St -> A -> St) L op (x : nest (S L) A) :
  map snd (fst (recursive_for_each step L op x)) = leaves (S L) x /\ snd (recursive_for_each step L op x) = op.
Proof.
  revert x; induction L as [|L IH]; intros x; split; auto.
  - cbn [recursive_for_each fst leaves]; rewrite calls_snd, flat_single; auto.
  - cbn [recursive_for_each fst]; change (leaves (S (S L)) x) with (flat_map (leaves (S L)) (x : list (nest (S L) A))).
    change (nest (S (S L)) A) with (list (nest (S L) A)) in x.
    induction x as [|e x IHx]; auto; cbn [flat_map]; rewrite map_app, IHx; f_equal; apply IH.
Qed.

(** ** extrema *)
Section Max.
  Context {A : Type} (lt : A -> A -> bool) (proj : A -> A).
  Hypothesis irrefl : forall a, lt a a = false.
  Hypothesis trans : forall a b c, lt a b = true -> lt b c = true -> lt a c = true.
  Hypothesis ntrans : forall a b c, lt a b = false -> lt b c = false -> lt a c = false.

  Let lp a b := lt (proj a) (proj b).
  Let mx := max2 lt proj.
  Let mn := min2 lt proj.

  Lemma max2_assoc a b c : mx a (mx b c) = mx (mx a b) c.
  Proof.
    unfold mx, max2.
    destruct (lt (proj b) (proj c)) eqn:BC, (lt (proj a) (proj b)) eqn:AB; cbn; rewrite ?AB, ?BC; auto.
    - rewrite (trans _ _ _ AB BC); auto.
    - rewrite (ntrans _ _ _ AB BC); auto.
  Qed.
  Lemma min2_assoc a b c : mn a (mn b c) = mn (mn a b) c.
  Proof.
    unfold mn, min2.
    destruct (lt (proj c) (proj b)) eqn:BC, (lt (proj b) (proj a)) eqn:AB; cbn; rewrite ?AB, ?BC; auto.
    - rewrite (trans _ _ _ BC AB); auto.
    - rewrite (ntrans _ _ _ BC AB); auto.
  Qed.
  Lemma max2_idem a : mx a a = a.
  Proof. unfold mx, max2; rewrite irrefl; auto. Qed.
  Lemma min2_idem a : mn a a = a.
  Proof. unfold mn, min2; rewrite irrefl; auto. Qed.
End Max.

(** a fold of an associative idempotent operation over the leaves *)
Section Fold1.
  Context {A : Type} (op : A -> A -> A) (proj : A -> A).
  Hypothesis assoc : forall a b c, op a (op b c) = op (op a b) c.
  Hypothesis idem : forall a, op a a = a.

  Definition fold1 (l : list A) : option A := match l with [] => None | a :: r => Some (fold_left op r a) end.
  Definition mop (x y : option A) : option A :=
    match x, y with Some a, Some b => Some (op a b) | Some a, None => Some a | None, y => y end.

  Lemma fold_left_op a b l : fold_left op l (op a b) = op a (fold_left op l b).
  Proof. revert b; induction l as [|c l IH]; intros b; cbn; auto; rewrite <- IH, assoc; auto. Qed.
  Lemma fold1_app l m : fold1 (l ++ m) = mop (fold1 l) (fold1 m).
  Proof.
    destruct l as [|a l]; cbn; auto; rewrite fold_left_app; destruct m as [|b m]; cbn; auto.
    rewrite <- fold_left_op; auto.
  Qed.

  (** the common form of recursive_max and recursive_min *)
  Fixpoint rext (d : nat) : nest d A -> res A :=
    match d with
    | O => fun x => Ok (proj x)
    | S d' => fun numbers =>
        match (numbers : list (nest d' A)) with
        | [] => Throw OutOfRange
        | first :: _ =>
            let* output := rext d' first in
            for_list numbers (fun element output => let* m := rext d' element in Ok (op output m)) output
        end
    end.

  Lemma rext_ok d (x : nest d A) : no_empty d x ->
    exists m, rext d x = Ok m /\ fold1 (map proj (leaves d x)) = Some m.
  Proof.
    revert x; induction d as [|d IH]; intros x N; [exists (proj x); auto|].
    change (nest (S d) A) with (list (nest d A)) in x; destruct N as [N F].
    destruct x as [|e x]; [elim N; reflexivity|]; clear N.
    assert (Loop : forall x, Forall (no_empty d) x -> forall o, exists m,
      for_list x (fun element output => let* m := rext d element in Ok (op output m)) o = Ok m
      /\ mop (Some o) (fold1 (map proj (flat_map (leaves d) x))) = Some m).
    { clear x F; intros x F; induction F as [|y x Hy F IHx]; intros o; [exists o; auto|].
      destruct (IH y Hy) as (m & E & G).
      destruct (IHx (op o m)) as (m' & E' & G'); exists m'; split; [cbn; rewrite E; auto|].
      cbn [flat_map]; rewrite map_app, fold1_app, G; rewrite <- G'.
      destruct (fold1 (map proj (flat_map (leaves d) x))); cbn; auto; rewrite assoc; auto. }
    assert (He := Forall_inv F); destruct (IH e He) as (o & E & G).
    destruct (Loop (e :: x) F o) as (m & E' & G'); exists m; split; [cbn [rext]; rewrite E; auto|].
    cbn [leaves flat_map] in *; rewrite map_app, fold1_app, G in *.
    rewrite <- G'; destruct (fold1 (map proj (flat_map (leaves d) x))); cbn.
    - rewrite assoc, idem; auto.
    - rewrite idem; auto.
  Qed.

  Lemma rext_throws d (x : nest d A) : ~ no_empty d x -> rext d x = Throw OutOfRange.
  Proof.
    revert x; induction d as [|d IH]; intros x N; [elim N; exact I|].
    change (nest (S d) A) with (list (nest d A)) in x.
    destruct x as [|e x]; auto.
    assert (Dec : forall d (x : nest d A), no_empty d x \/ ~ no_empty d x).
    { clear; induction d as [|d IH]; intros x; [left; exact I|].
      change (nest (S d) A) with (list (nest d A)) in x; cbn [no_empty].
      destruct x as [|e x]; [right; intros [X _]; apply X; reflexivity|].
      assert (G : Forall (no_empty d) (e :: x) \/ ~ Forall (no_empty d) (e :: x)).
      { generalize (e :: x); intros l; induction l as [|a l IHl]; [left; constructor|].
        destruct (IH a), IHl; [left; constructor; auto|right; inversion 1; auto|right; inversion 1; auto|right; inversion 1; auto]. }
      destruct G; [left; split; auto; discriminate|right; intros []; auto]. }
    assert (Loop : forall x, ~ Forall (no_empty d) x -> forall o,
      for_list x (fun element output => let* m := rext d element in Ok (op output m)) o = Throw OutOfRange).
    { clear x N; intros x; induction x as [|y x IHx]; intros N o; [elim N; constructor|].
      cbn [for_list]; destruct (Dec d y) as [Hy|Hy].
      - destruct (rext_ok d y Hy) as (m & E & _); rewrite E; cbn [bind]; apply IHx; intros F; apply N; constructor; auto.
      - rewrite IH; auto. }
    cbn [rext]; destruct (Dec d e) as [He|He]; [|rewrite IH; auto].
    destruct (rext_ok d e He) as (m & E & _); rewrite E; cbn [bind]; apply Loop; intros F; apply N; split; auto; discriminate.
  Qed.
End Fold1.

Lemma recursive_max_rext {A} comp proj d (x : nest d A) : recursive_max comp proj d x = rext (max2 comp proj) proj d x.
Proof. reflexivity. Qed.
Lemma recursive_min_rext {A} comp proj d (x : nest d A) : recursive_min comp proj d x = rext (min2 comp proj) proj d x.
Proof. reflexivity. Qed.

(** ** copies and transforms *)
Lemma replace_rel {A} (p : A -> bool) v L (x : nest (S L) A) :
  nest_rel (fun a b => b = if p a then v else a) (S L) x (recursive_replace_copy_if p v L x).
Proof.
  revert x; induction L as [|L IH]; intros x.
  - change (nest 1 A) with (list A) in x; cbn; induction x; cbn; constructor; auto.
  - change (nest (S (S L)) A) with (list (nest (S L) A)) in x.
    cbn [recursive_replace_copy_if nest_rel]; induction x as [|e x IHx]; [constructor|].
    cbn [map]; constructor; [apply IH|apply IHx].
Qed.
Lemma nest_rel_fun {A B} (f : A -> B) d x y : nest_rel (fun a b => b = f a) d x y -> leaves d y = map f (leaves d x).
Proof.
  revert x y; induction d as [|d IH]; intros x y; [cbn; intros ->; auto|].
  cbn [nest_rel leaves]; intros F; induction F as [|a b l m H F IHF]; auto.
  cbn [flat_map]; rewrite map_app, IHF; f_equal; apply IH; auto.
Qed.

Lemma remove_inner {A} (p : A -> bool) L (x : nest (S L) A) :
  inner_rel (fun l m => m = filter (fun a => negb (p a)) l) L x (recursive_remove_copy_if p L x)
  /\ leaves (S L) (recursive_remove_copy_if p L x) = filter (fun a => negb (p a)) (leaves (S L) x).
Proof.
  revert x; induction L as [|L IH]; intros x.
  - split; [reflexivity|]; cbn [recursive_remove_copy_if leaves]; rewrite !flat_single; auto.
  - change (nest (S (S L)) A) with (list (nest (S L) A)) in x.
    change (leaves (S (S L)) x) with (flat_map (leaves (S L)) x).
    change (leaves (S (S L)) (recursive_remove_copy_if p (S L) x)) with (flat_map (leaves (S L)) (map (recursive_remove_copy_if p L) x)).
    cbn [recursive_remove_copy_if inner_rel]; split.
    + induction x as [|e x IHx]; [constructor|]; cbn [map]; constructor; [apply IH|apply IHx].
    + induction x as [|e x IHx]; auto; cbn [map flat_map]; rewrite IHx, filter_app; f_equal; apply IH.
Qed.
Lemma copy_inner {A} (p : A -> bool) L (x : nest (S L) A) :
  inner_rel (fun l m => m = filter p l) L x (recursive_copy_if p L x)
  /\ leaves (S L) (recursive_copy_if p L x) = filter p (leaves (S L) x).
Proof.
  revert x; induction L as [|L IH]; intros x.
  - split; [reflexivity|]; cbn [recursive_copy_if leaves]; rewrite !flat_single; auto.
  - change (nest (S (S L)) A) with (list (nest (S L) A)) in x.
    change (leaves (S (S L)) x) with (flat_map (leaves (S L)) x).
    change (leaves (S (S L)) (recursive_copy_if p (S L) x)) with (flat_map (leaves (S L)) (map (recursive_copy_if p L) x)).
    cbn [recursive_copy_if inner_rel]; split.
    + induction x as [|e x IHx]; [constructor|]; cbn [map]; constructor; [apply IH|apply IHx].
    + induction x as [|e x IHx]; auto; cbn [map flat_map]; rewrite IHx, filter_app; f_equal; apply IH.
Qed.

Lemma mapM_forall2 {A B} (f : A -> res B) (R : A -> B -> Prop) l m :
  (forall a b, f a = Ok b <-> R a b) -> mapM f l = Ok m <-> Forall2 R l m.
Proof.
  intros H; revert m; induction l as [|a l IH]; intros m; cbn.
  - split; [intros [= <-]; constructor|inversion 1; auto].
  - split.
    + destruct (f a) as [b| |] eqn:E; cbn; try discriminate.
      destruct (mapM f l) as [bs| |]; cbn; try discriminate; intros [= <-].
      constructor; [apply H; auto|apply IH; auto].
    + inversion 1 as [|a' b l' m' Hab Hr]; subst; apply H in Hab; apply IH in Hr; rewrite Hab, Hr; auto.
Qed.
Lemma recursive_transform_ok {A B} (f : A -> res B) L x y :
  recursive_transform f L x = Ok y <-> nest_rel (fun a b => f a = Ok b) L x y.
Proof.
  revert x y; induction L as [|L IH]; intros x y; [cbn; tauto|].
  cbn [recursive_transform nest_rel]; apply mapM_forall2, IH.
Qed.

(** the whole outcome, in terms of the leaves *)
Lemma mapM_app {A B} (f : A -> res B) l m :
  mapM f (l ++ m) = let* x := mapM f l in let* y := mapM f m in Ok (x ++ y).
Proof.
  induction l as [|a l IH]; cbn.
  - destruct (mapM f m); auto.
  - destruct (f a); cbn; auto; rewrite IH; destruct (mapM f l); cbn; auto; destruct (mapM f m); cbn; auto.
Qed.
Lemma recursive_transform_flat {A B} (f : A -> res B) L x :
  (let* y := recursive_transform f L x in Ok (leaves L y)) = mapM f (leaves L x).
Proof.
  revert x; induction L as [|L IH]; intros x; [cbn; destruct (f x); auto|].
  change (nest (S L) A) with (list (nest L A)) in x; cbn [recursive_transform leaves].
  induction x as [|e x IHx]; auto; cbn [flat_map mapM]; rewrite mapM_app, <- IHx, <- IH.
  destruct (recursive_transform f L e); cbn [bind]; auto.
  destruct (mapM (recursive_transform f L) x); cbn [bind]; auto.
Qed.

Lemma transform2_spec {A B C} (op : A -> B -> res C) l rest :
  (forall a b, op a b <> Throw RuntimeError) ->
  forall m, transform2 op l rest = Ok m <-> exists r1 r2, rest = r1 ++ r2 /\ length r1 = length l /\
    Forall2 (fun ab c => op (fst ab) (snd ab) = Ok c) (combine l r1) m.
Proof.
  intros _; revert rest; induction l as [|a l IH]; intros rest m; cbn.
  - split; [intros [= <-]; exists [], rest; repeat split; constructor|].
    intros (r1 & r2 & _ & H & F); destruct r1; [|discriminate]; inversion F; auto.
  - destruct rest as [|b rest].
    + split; [discriminate|]; intros (r1 & r2 & E & H & _); destruct r1; discriminate.
    + split.
      * destruct (op a b) as [c| |] eqn:E; cbn; try discriminate.
        destruct (transform2 op l rest) as [cs| |] eqn:E2; cbn; try discriminate; intros [= <-].
        apply IH in E2 as (r1 & r2 & -> & H & F); exists (b :: r1), r2; cbn; repeat split; auto.
      * intros (r1 & r2 & E & H & F); destruct r1 as [|b' r1]; [discriminate|]; cbn in *; injection E as -> ->.
        inversion F as [|ab c l' m' Hc Hr]; subst; cbn in Hc; rewrite Hc; cbn.
        rewrite (proj2 (IH _ m')); auto; exists r1, r2; auto.
Qed.

Lemma recursive_transform2_total {A B C} (f : A -> B -> C) L x y :
  (exists z, recursive_transform2 f L x y = Ok z) \/ recursive_transform2 f L x y = UB.
Proof.
  revert x y; induction L as [|L IH]; intros x y; [left; eexists; reflexivity|].
  change (nest (S L) A) with (list (nest L A)) in x; change (nest (S L) B) with (list (nest L B)) in y.
  cbn [recursive_transform2]; revert y; induction x as [|a x IHx]; intros y; cbn; [left; eexists; reflexivity|].
  destruct y as [|b y]; auto.
  destruct (IH a b) as [(c & E)|E]; rewrite E; cbn; auto.
  destruct (IHx y) as [(cs & E2)|E2]; rewrite E2; cbn; auto; left; eexists; reflexivity.
Qed.
Lemma recursive_transform2_within {A B C} (f : A -> B -> C) L x y :
  within L x y <-> exists z, recursive_transform2 f L x y = Ok z.
Proof.
  revert x y; induction L as [|L IH]; intros x y; [cbn; split; eauto|].
  change (nest (S L) A) with (list (nest L A)) in x; change (nest (S L) B) with (list (nest L B)) in y.
  cbn [within recursive_transform2]; revert y; induction x as [|a x IHx]; intros y; cbn [transform2].
  - split; eauto; intros _; exists [], y; split; auto.
  - split.
    + intros (m1 & m2 & -> & F); inversion F as [|a' b l' m' Hab Hr]; subst; cbn [app].
      apply IH in Hab as (c & E); rewrite E; cbn [bind].
      assert (G : exists m3 m2', m' ++ m2 = m3 ++ m2' /\ Forall2 (within L) x m3) by eauto.
      apply IHx in G as (cs & E2); rewrite E2; cbn; eauto.
    + intros (z & E); destruct y as [|b y]; [discriminate|].
      destruct (recursive_transform2 f L a b) as [c| |] eqn:E1; cbn in E; try discriminate.
      destruct (transform2 (recursive_transform2 f L) x y) as [cs| |] eqn:E2; cbn in E; try discriminate.
      destruct (proj2 (IHx y)) as (m1 & m2 & -> & F); [eauto|].
      exists (b :: m1), m2; split; auto; constructor; auto; apply IH; eauto.
Qed.
Lemma recursive_transform2_at {A B C} (f : A -> B -> C) L x y z : recursive_transform2 f L x y = Ok z ->
  nest_rel (fun _ _ => True) L x z /\
  forall p, leaf_at L z p = match leaf_at L x p, leaf_at L y p with Some a, Some b => Some (f a b) | _, _ => None end.
Proof.
  revert x y z; induction L as [|L IH]; intros x y z.
  - cbn; intros [= <-]; split; auto; intros [|]; auto.
  - change (nest (S L) A) with (list (nest L A)) in x; change (nest (S L) B) with (list (nest L B)) in y;
    change (nest (S L) C) with (list (nest L C)) in z.
    cbn [recursive_transform2 nest_rel]; revert y z; induction x as [|a x IHx]; intros y z; cbn [transform2].
    + intros [= <-]; split; [constructor|]; intros [|[|i] p]; auto.
    + destruct y as [|b y]; [discriminate|].
      destruct (recursive_transform2 f L a b) as [c| |] eqn:E1; cbn; try discriminate.
      destruct (transform2 (recursive_transform2 f L) x y) as [cs| |] eqn:E2; cbn; try discriminate; intros [= <-].
      destruct (IH _ _ _ E1) as [R1 P1]; destruct (IHx _ _ E2) as [R2 P2]; split; [constructor; auto|].
      intros [|[|i] p]; auto; [apply P1|apply (P2 (i :: p))].
Qed.

(** ** the policy version of transform *)
Fixpoint nmap {A B} (f : A -> B) (d : nat) : nest d A -> nest d B :=
  match d with O => f | S d' => map (nmap f d') end.
Lemma nmap_rel {A B} (f : A -> B) d x : nest_rel (fun a b => b = f a) d x (nmap f d x).
Proof.
  revert x; induction d as [|d IH]; intros x; [cbn; auto|].
  change (nest (S d) A) with (list (nest d A)) in x; cbn [nest_rel nmap]; induction x; cbn; constructor; auto.
Qed.
Lemma nest_rel_unique {A B} (f : A -> B) d x y : nest_rel (fun a b => b = f a) d x y <-> y = nmap f d x.
Proof.
  split; [|intros ->; apply nmap_rel].
  revert x y; induction d as [|d IH]; intros x y; [cbn; auto|].
  cbn [nest_rel nmap]; intros F; induction F; cbn; auto; f_equal; auto; apply IH; auto.
Qed.

Lemma list_upd_nth {A} (l : list A) k v i : nth_error (list_upd k v l) i =
  if i =? k then (if k <? length l then Some v else None) else nth_error l i.
Proof.
  revert k i; induction l as [|a l IH]; intros k i.
  - destruct k, i; cbn; auto; destruct (i =? k); auto.
  - destruct k, i; cbn; auto. rewrite IH; cbn; auto.
Qed.
Lemma list_upd_len {A} (l : list A) k v : length (list_upd k v l) = length l.
Proof. revert k; induction l; intros [|k]; cbn; auto. Qed.

Lemma fill_slots {A B} (l : list A) (g : nat -> A -> res B) (h : A -> B) order (out : list B) :
  (forall i a, nth_error l i = Some a -> g i a = Ok (h a)) -> Forall (fun i => i < length l) order ->
  length out = length l ->
  exists out', for_list order (fun i output => let* e := vget l i in let* v := g i e in vset output i v) out = Ok out'
  /\ length out' = length l /\
  forall i, nth_error out' i = if in_dec Nat.eq_dec i order then option_map h (nth_error l i) else nth_error out i.
Proof.
  intros G; revert out; induction order as [|k order IH]; intros out F HL.
  - exists out; repeat split; auto.
  - inversion F as [|k' o' Hk F']; subst.
    destruct (nth_error l k) as [a|] eqn:Ea; [|apply nth_error_None in Ea; lia].
    cbn [for_list]; unfold vget at 1; rewrite Ea; cbn [bind]; rewrite (G _ _ Ea); cbn [bind].
    unfold vset at 1; destruct (k <? length out) eqn:Kb; [|lia]; cbn [bind].
    destruct (IH (list_upd k (h a) out) F') as (out' & E & L' & N'); [rewrite list_upd_len; auto|].
    exists out'; split; [exact E|]; split; auto; intros i; rewrite N'.
    destruct (in_dec Nat.eq_dec i order) as [I|I]; destruct (in_dec Nat.eq_dec i (k :: order)) as [J|J]; auto.
    + elim J; cbn; auto.
    + destruct J as [->|J]; [|tauto]; rewrite list_upd_nth, Nat.eqb_refl, Kb, Ea; auto.
    + rewrite list_upd_nth; destruct (i =? k) eqn:Eik; auto; elim J; left; lia.
Qed.

Lemma recursive_transform_policy_ok {A B} sg (b0 : B) (f : A -> B) L path x :
  (forall p n, Permutation (sg p n) (seq 0 n)) -> recursive_transform_policy sg b0 f L path x = Ok (nmap f L x).
Proof.
  intros SG; revert path x; induction L as [|L IH]; intros path x; auto.
  change (nest (S L) A) with (list (nest L A)) in x; cbn [recursive_transform_policy nmap].
  set (n := length x).
  destruct (fill_slots x (fun i e => recursive_transform_policy sg b0 f L (path ++ [i]) e) (nmap f L) (sg path n)
              (repeat (ndefault b0 L) n)) as (out & E & HL & HN).
  - intros; apply IH.
  - apply Forall_forall; intros i I; apply (Permutation_in _ (SG path n)), in_seq in I; unfold n in I; lia.
  - apply repeat_length.
  - etransitivity; [exact E|]; f_equal.
    assert (X : forall i, nth_error out i = nth_error (map (nmap f L) x) i).
    { intros i; rewrite HN, nth_error_map; destruct (in_dec Nat.eq_dec i (sg path n)) as [I|I]; auto.
      assert (O : length x <= i).
      { destruct (Nat.le_gt_cases (length x) i); auto; elim I.
        apply (Permutation_in _ (Permutation_sym (SG path n))), in_seq; unfold n; lia. }
      rewrite (proj2 (nth_error_None x i) O); apply nth_error_None; rewrite repeat_length; auto. }
    clear -X; revert X; generalize (map (nmap f L) x); induction out as [|b out IH]; intros m X.
    + destruct m; auto; specialize (X 0); discriminate.
    + destruct m as [|c m]; [specialize (X 0); discriminate|]; f_equal; [specialize (X 0); cbn in X; congruence|].
      apply IH; intros i; apply (X (S i)).
Qed.

(** ** transform-reduce *)
Section Reduce.
  Context {T : Type} (op : T -> T -> T).
  Hypothesis assoc : forall a b c, op a (op b c) = op (op a b) c.
  Hypothesis comm : forall a b, op a b = op b a.

  Notation G := (fold1 op).
  Notation mo := (mop op).

  Lemma mop_assoc a b c : mo a (mo b c) = mo (mo a b) c.
  Proof. destruct a, b, c; cbn; auto; rewrite assoc; auto. Qed.
  Lemma mop_comm a b : mo a b = mo b a.
  Proof. destruct a, b; cbn; auto; rewrite comm; auto. Qed.
  Lemma G_cons a l : G (a :: l) = mo (Some a) (G l).
  Proof. apply (fold1_app op assoc [a] l). Qed.
  Lemma G_perm l m : Permutation l m -> G l = G m.
  Proof.
    induction 1; auto; try congruence.
    - rewrite !G_cons; congruence.
    - rewrite (G_cons y), (G_cons x l), (G_cons x), (G_cons y l), !mop_assoc, (mop_comm (Some y)); auto.
  Qed.
  Lemma reduces_G l r : reduces op l r -> G l = Some r.
  Proof.
    induction 1 as [a|l l1 l2 a b P R1 IH1 R2 IH2]; auto.
    rewrite (G_perm _ _ P), fold1_app, IH1, IH2; auto.
  Qed.
  Lemma G_flat {E} (h : E -> list T) l vs : Forall2 (fun e v => G (h e) = Some v) l vs -> G vs = G (flat_map h l).
  Proof.
    induction 1 as [|e v l vs H F IH]; auto; cbn [flat_map]; rewrite fold1_app, H, G_cons, IH; auto.
  Qed.
  Lemma transform_reduces_G {E} init (f : E -> T -> Prop) h l r :
    (forall e v, f e v -> G (h e) = Some v) -> transform_reduces op init f l r -> G (init :: flat_map h l) = Some r.
  Proof.
    intros H (vs & F & R); apply reduces_G in R; rewrite G_cons in *.
    rewrite <- (G_flat h l vs); auto; clear -F H; induction F; constructor; auto.
  Qed.

  Context {A : Type} (zero : T) (f : A -> T).

  (** how many times T{} enters the exhaustive version and the version with an unwrap level *)
  Fixpoint below (d : nat) : nest d A -> nat :=
    match d with O => fun _ => 0 | S d' => fun l => list_sum (map (fun e => S (below d' e)) (l : list (nest d' A))) end.
  Fixpoint inner (d : nat) : nest (S d) A -> nat :=
    match d with O => fun _ => 0 | S d' => fun l => list_sum (map (fun e => S (inner d' e)) (l : list (nest (S d') A))) end.

  Lemma flat_perm {E} (n : E -> nat) (g : E -> list A) l :
    Permutation (flat_map (fun e => zero :: repeat zero (n e) ++ map f (g e)) l)
                (repeat zero (list_sum (map (fun e => S (n e)) l)) ++ map f (flat_map g l)).
  Proof.
    induction l as [|e l IH]; [constructor|].
    cbn [flat_map map]; change (list_sum (S (n e) :: ?x)) with (S (n e) + list_sum x).
    cbn [plus repeat app]; rewrite map_app, repeat_app; constructor.
    rewrite <- !app_assoc; apply Permutation_app_head.
    transitivity (map f (g e) ++ repeat zero (list_sum (map (fun e => S (n e)) l)) ++ map f (flat_map g l)).
    - apply Permutation_app_head, IH.
    - rewrite !app_assoc; apply Permutation_app_tail, Permutation_app_comm.
  Qed.

  Lemma rtr_exact d x init r : recursive_transform_reduce zero op f d x init r ->
    G (init :: repeat zero (below d x) ++ map f (leaves d x)) = Some r.
  Proof.
    revert x init r; induction d as [|d IH]; intros x init r; [cbn; intros ->; auto|].
    cbn [recursive_transform_reduce below leaves]; intros H.
    apply (transform_reduces_G _ _ (fun e => zero :: repeat zero (below d e) ++ map f (leaves d e))) in H; [|intros e v; apply IH].
    rewrite <- H; apply G_perm; constructor; symmetry; apply flat_perm.
  Qed.
  Lemma rtr_level_exact L x init r : recursive_transform_reduce_level zero op f (S L) x init r ->
    G (init :: repeat zero (inner L x) ++ map f (leaves (S L) x)) = Some r.
  Proof.
    revert x init r; induction L as [|L IH]; intros x init r.
    - cbn [recursive_transform_reduce_level inner leaves]; intros H.
      apply (transform_reduces_G _ _ (fun e => [f e])) in H; [|intros e v ->; auto].
      rewrite <- H; cbn [repeat app]; do 2 f_equal; rewrite flat_single; cbn in x; clear; induction x; cbn; congruence.
    - intros H; change (leaves (S (S L)) x) with (flat_map (leaves (S L)) (x : list (nest (S L) A))).
      cbn [inner].
      apply (transform_reduces_G _ _ (fun e => zero :: repeat zero (inner L e) ++ map f (leaves (S L) e))) in H; [|intros e v; apply IH].
      rewrite <- H; apply G_perm; constructor; symmetry; apply flat_perm.
  Qed.
  Lemma G_zero n l : (forall a, op a zero = a) -> forall init, G (init :: repeat zero n ++ l) = G (init :: l).
  Proof.
    intros Z init; induction n as [|n IH]; auto; cbn [repeat app].
    rewrite (G_cons init), (G_cons zero), mop_assoc; change (mo (Some init) (Some zero)) with (Some (op init zero)); rewrite Z, <- G_cons; auto.
  Qed.
End Reduce.

Lemma transform_reduces_exists {E T} (op : T -> T -> T) init (f : E -> T -> Prop) l :
  (forall e, exists v, f e v) -> exists r, transform_reduces op init f l r.
Proof.
  intros H; assert (V : exists vs, Forall2 f l vs).
  { induction l as [|e l (vs & IH)]; [exists []; constructor|]; destruct (H e) as [v Hv]; exists (v :: vs); auto. }
  destruct V as [vs V]; destruct (reduces_exists op (init :: vs)) as [r R]; [discriminate|].
  exists r, vs; auto.
Qed.
Lemma rtr_exists {A T} (zero : T) op (f : A -> T) d x init : exists r, recursive_transform_reduce zero op f d x init r.
Proof.
  revert x init; induction d as [|d IH]; intros x init; [eexists; reflexivity|].
  cbn [recursive_transform_reduce]; apply transform_reduces_exists; auto.
Qed.
Lemma rtr_level_exists {A T} (zero : T) op (f : A -> T) d x init : exists r, recursive_transform_reduce_level zero op f d x init r.
Proof.
  revert x init; induction d as [|d IH]; intros x init; [eexists; reflexivity|].
  cbn [recursive_transform_reduce_level]; apply transform_reduces_exists; auto.
Qed.

(** ** flattening, generators *)
Lemma recursive_flatten_app {A} L (x : nest (S L) A) out : recursive_flatten L x out = out ++ leaves (S L) x.
Proof.
  revert x out; induction L as [|L IH]; intros x out.
  - cbn [recursive_flatten leaves]; rewrite flat_single; change (nest 1 A) with (list A) in x.
    revert out; induction x as [|e x IHx]; intros out; cbn; [rewrite app_nil_r; auto|].
    rewrite IHx, <- app_assoc; auto.
  - change (nest (S (S L)) A) with (list (nest (S L) A)) in x.
    change (leaves (S (S L)) x) with (flat_map (leaves (S L)) x); cbn [recursive_flatten].
    revert out; induction x as [|e x IHx]; intros out; cbn [fold_left flat_map]; [rewrite app_nil_r; auto|].
    rewrite IHx, IH, <- app_assoc; auto.
Qed.

Lemma n_dim_leaves {A} dim (v : A) times : leaves dim (n_dim_generator dim v times) = repeat v (times ^ dim).
Proof.
  induction dim as [|d IH]; auto; cbn [n_dim_generator leaves Nat.pow].
  assert (H : forall n, flat_map (leaves d) (repeat (n_dim_generator d v times) n) = repeat v (n * times ^ d)).
  { induction n as [|n IHn]; auto; cbn [repeat flat_map]; rewrite IHn, IH; cbn [Nat.mul]; rewrite repeat_app; auto. }
  apply H.
Qed.

(** ** the first largest element *)
Lemma fold_first_max {A} (lt : A -> A -> bool) a l :
  (forall a, lt a a = false) -> (forall a b c, lt a b = true -> lt b c = true -> lt a c = true) ->
  (forall a b c, lt a b = false -> lt b c = false -> lt a c = false) ->
  exists l1 l2, a :: l = l1 ++ fold_left (max2 lt (fun x => x)) l a :: l2
  /\ (forall y, In y (a :: l) -> lt (fold_left (max2 lt (fun x => x)) l a) y = false)
  /\ (forall y, In y l1 -> lt y (fold_left (max2 lt (fun x => x)) l a) = true).
Proof.
  intros I T N; induction l as [|b l IH] using rev_ind.
  - exists [], []; cbn; repeat split; [intros y [<-|[]]; auto|intros y []].
  - destruct IH as (l1 & l2 & E & H1 & H2); rewrite fold_left_app; cbn [fold_left].
    generalize dependent (fold_left (max2 lt (fun x => x)) l a); intros m E H1 H2; unfold max2; destruct (lt m b) eqn:B.
    + exists (a :: l), []; split; auto; split.
      * intros y Hy; change (a :: l ++ [b]) with ((a :: l) ++ [b]) in Hy; apply in_app_or in Hy as [Hy|[<-|[]]]; auto.
        destruct (lt b y) eqn:C; auto; assert (X := T _ _ _ B C); rewrite (H1 y Hy) in X; congruence.
      * intros y Hy; destruct (lt y b) eqn:C; auto; rewrite (N _ _ _ (H1 y Hy) C) in B; congruence.
    + exists l1, (l2 ++ [b]); split; [change (a :: l ++ [b]) with ((a :: l) ++ [b]); rewrite E, <- app_assoc; auto|].
      split; auto.
      intros y Hy; change (a :: l ++ [b]) with ((a :: l) ++ [b]) in Hy; apply in_app_or in Hy as [Hy|[<-|[]]]; auto.
Qed.

(** ** statistics *)
Lemma fold_plus l a : fold_left Rplus l a = (a + rsuml l)%R.
Proof. unfold rsuml; revert a; induction l; intros; cbn; [ring|rewrite IHl; ring]. Qed.
Lemma sum_sq_dev l m : rsuml (map (fun x => (x - m) ^ 2) l)%R =
  (rsuml (map (fun x => x ^ 2) l) - 2 * m * rsuml l + INR (length l) * m ^ 2)%R.
Proof.
  unfold rsuml; induction l as [|a l IH]; [cbn; ring|].
  cbn [map fold_right length]; rewrite S_INR, IH; ring.
Qed.
Lemma sum_sq_pos l m : (0 <= rsuml (map (fun x => (x - m) ^ 2) l))%R.
Proof.
  unfold rsuml; induction l as [|a l IH]; cbn [map fold_right]; [lra|].
  assert (X := pow2_ge_0 (a - m)); lra.
Qed.
Lemma sum_sq_zero l m : rsuml (map (fun x => (x - m) ^ 2) l)%R = 0%R -> Forall (fun x => x = m) l.
Proof.
  induction l as [|a l IH]; intros H; constructor.
  - unfold rsuml in H; cbn [map fold_right] in H; fold (rsuml (map (fun x => (x - m) ^ 2) l)%R) in H.
    assert (X := pow2_ge_0 (a - m)); assert (Y := sum_sq_pos l m).
    assert (Z : ((a - m) ^ 2 = 0)%R) by lra.
    apply Rmult_integral in Z as [Z|Z]; [lra|]; rewrite Rmult_1_r in Z; lra.
  - apply IH; unfold rsuml in H; cbn [map fold_right] in H; fold (rsuml (map (fun x => (x - m) ^ 2) l)%R) in H.
    assert (X := pow2_ge_0 (a - m)); assert (Y := sum_sq_pos l m); lra.
Qed.
Lemma rsuml_const l m : Forall (fun x => x = m) l -> rsuml l = (INR (length l) * m)%R.
Proof.
  induction 1 as [|a l -> F IH]; [cbn; ring|]; unfold rsuml in *; cbn [fold_right length]; rewrite S_INR, IH; ring.
Qed.

(** the sums over reals do not depend on the order *)
Lemma rtr_real {A} (f : A -> R) d x r :
  recursive_transform_reduce 0%R Rplus f d x 0%R r <-> r = rsuml (map f (leaves d x)).
Proof.
  assert (As : forall a b c : R, (a + (b + c) = a + b + c)%R) by (intros; ring).
  assert (Co : forall a b : R, (a + b = b + a)%R) by (intros; ring).
  assert (Ze : forall a : R, (a + 0 = a)%R) by (intros; ring).
  assert (E : forall r, recursive_transform_reduce 0%R Rplus f d x 0%R r -> r = rsuml (map f (leaves d x))).
  { intros r' H; apply rtr_exact in H; auto; rewrite G_zero in H; auto; cbn [fold1] in H.
    injection H as <-; rewrite fold_plus; ring. }
  split; auto; intros ->; destruct (rtr_exists 0%R Rplus f d x 0%R) as [r' H]; rewrite <- (E r' H); auto.
Qed.
