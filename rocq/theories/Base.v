(** Base.v - outcomes of C++ calls, loops, and vectors.

    A C++ call is modelled by a function into [res A]: it returns a value, throws an exception of a
    given class, or has undefined behaviour.  [UB] is never confused with a normal result. *)
From Coq Require Export List Arith ZArith Lia Bool Permutation.
From Coq Require Import ZifyBool ZifyNat.
Export ListNotations.

(** Exception classes thrown by the code (std::runtime_error, std::out_of_range, std::logic_error,
    std::invalid_argument; std::bad_alloc/length_error when a vector of an absurd size is requested). *)
Inductive err : Type := RuntimeError | OutOfRange | LogicError | InvalidArgument | BadAlloc.

Inductive res (A : Type) : Type :=
| Ok (a : A)
| Throw (e : err)
| UB.
Arguments Ok {A} a.
Arguments Throw {A} e.
Arguments UB {A}.

Definition bind {A B} (m : res A) (k : A -> res B) : res B :=
  match m with
  | Ok a => k a
  | Throw e => Throw e
  | UB => UB
  end.

Notation "'let*' x ':=' m 'in' k" := (bind m (fun x => k))
  (at level 200, x pattern, m at level 100, k at level 200, right associativity).

(** A C++ range loop: the body is run for each element in order; an exception or UB ends the loop. *)
Fixpoint for_list {I S} (l : list I) (body : I -> S -> res S) (s : S) : res S :=
  match l with
  | [] => Ok s
  | i :: l' => let* s' := body i s in for_list l' body s'
  end.

(** [for (std::size_t i = 0; i < n; ++i)] *)
Definition for_range {S} (n : nat) (body : nat -> S -> res S) (s : S) : res S :=
  for_list (seq 0 n) body s.

(** [std::vector] element update; total, used only after a range check. *)
Fixpoint list_upd {A} (k : nat) (v : A) (l : list A) : list A :=
  match l, k with
  | [], _ => []
  | _ :: l', O => v :: l'
  | a :: l', S k' => a :: list_upd k' v l'
  end.

(** [vec[i]] read: undefined outside the vector. *)
Definition vget {A} (l : list A) (i : nat) : res A :=
  match nth_error l i with
  | Some v => Ok v
  | None => UB
  end.

(** [vec[i] = v]: undefined outside the vector. *)
Definition vset {A} (l : list A) (i : nat) (v : A) : res (list A) :=
  if i <? length l then Ok (list_upd i v l) else UB.

(** Traverse a list with a fallible function, left to right ([std::transform] with a throwing functor). *)
Fixpoint mapM {A B} (f : A -> res B) (l : list A) : res (list B) :=
  match l with
  | [] => Ok []
  | a :: l' => let* b := f a in let* bs := mapM f l' in Ok (b :: bs)
  end.

(** 64-bit unsigned wrap-around. *)
Definition two64 : Z := 2 ^ 64.
Definition w64 (z : Z) : Z := z mod two64.

(** size_t subtraction and addition of numbers below 2^64, with wrap-around *)
Definition wn (z : Z) : nat := Z.to_nat (w64 z).
Definition usub (a b : nat) : nat := wn (Z.of_nat a - Z.of_nat b).
Definition uadd (a b : nat) : nat := wn (Z.of_nat a + Z.of_nat b).

(** product of extents, std::reduce with multiplies and initial value 1 *)
Definition prodn (l : list nat) : nat := fold_right Nat.mul 1 l.

(** ** Lemmas on vectors *)
Section ListUpd.
  Context {A : Type}.
  Implicit Types (l : list A) (v : A) (k : nat).

  Lemma list_upd_length k v l : length (list_upd k v l) = length l.
  Proof. revert k; induction l as [|a l IH]; intros [|k]; simpl; auto. Qed.

  Lemma list_upd_same k v l : k < length l -> nth_error (list_upd k v l) k = Some v.
  Proof.
    revert k; induction l as [|a l IH]; intros [|k] H; simpl in *; try lia; auto.
    apply IH; lia.
  Qed.

  Lemma list_upd_other k j v l : j <> k -> nth_error (list_upd k v l) j = nth_error l j.
  Proof.
    revert k j; induction l as [|a l IH]; intros [|k] [|j] H; simpl; auto; try lia.
  Qed.

  Lemma list_upd_out k v l : length l <= k -> list_upd k v l = l.
  Proof.
    revert k; induction l as [|a l IH]; intros [|k] H; simpl in *; try lia; auto.
    f_equal; apply IH; lia.
  Qed.

  Lemma list_upd_comm j k u v l :
    j <> k -> list_upd j u (list_upd k v l) = list_upd k v (list_upd j u l).
  Proof.
    revert j k; induction l as [|a l IH]; intros [|j] [|k] H; simpl; auto; try lia.
    f_equal; apply IH; lia.
  Qed.

  Lemma nth_error_ext l1 l2 : (forall k, nth_error l1 k = nth_error l2 k) -> l1 = l2.
  Proof.
    revert l2; induction l1 as [|a l1 IH]; intros [|b l2] H; auto.
    - specialize (H 0); discriminate.
    - specialize (H 0); discriminate.
    - pose proof (H 0) as H0; simpl in H0; injection H0 as ->.
      f_equal; apply IH; intros k; exact (H (S k)).
  Qed.

  Lemma nth_error_ext_len l1 l2 :
    length l1 = length l2 ->
    (forall k, k < length l1 -> nth_error l1 k = nth_error l2 k) -> l1 = l2.
  Proof.
    intros HL H; apply nth_error_ext; intros k.
    destruct (Nat.lt_ge_cases k (length l1)) as [Hk|Hk]; auto.
    transitivity (@None A); [|symmetry]; apply nth_error_None; lia.
  Qed.

  Lemma nth_error_lt l k : k < length l -> exists v, nth_error l k = Some v.
  Proof.
    intros H; destruct (nth_error l k) as [v|] eqn:E; eauto.
    apply nth_error_None in E; lia.
  Qed.

  Lemma vget_ok l k v : nth_error l k = Some v -> vget l k = Ok v.
  Proof. unfold vget; intros ->; reflexivity. Qed.

  Lemma vget_lt l k : k < length l -> exists v, vget l k = Ok v /\ nth_error l k = Some v.
  Proof. intros H; destruct (nth_error_lt l k H) as [v E]; exists v; unfold vget; rewrite E; auto. Qed.

  Lemma vset_ok l k v : k < length l -> vset l k v = Ok (list_upd k v l).
  Proof. unfold vset; intros H; apply Nat.ltb_lt in H; rewrite H; reflexivity. Qed.

  Lemma vset_UB l k v : length l <= k -> vset l k v = UB.
  Proof. unfold vset; intros H; destruct (Nat.ltb_spec k (length l)); [lia|reflexivity]. Qed.

  (** A batch of element writes. *)
  Definition writes (ws : list (nat * A)) (l : list A) : list A :=
    fold_left (fun l kv => list_upd (fst kv) (snd kv) l) ws l.

  Lemma writes_length ws l : length (writes ws l) = length l.
  Proof.
    revert l; induction ws as [|[k v] ws IH]; intros l; simpl; auto.
    unfold writes in IH; rewrite IH; apply list_upd_length.
  Qed.

  Lemma writes_notin ws l k :
    ~ In k (map fst ws) -> nth_error (writes ws l) k = nth_error l k.
  Proof.
    revert l; induction ws as [|[j v] ws IH]; intros l H; simpl in *; auto.
    unfold writes in *; simpl; rewrite IH by tauto.
    apply list_upd_other; intros ->; tauto.
  Qed.

  Lemma writes_in ws l k v :
    NoDup (map fst ws) -> In (k, v) ws -> k < length l -> nth_error (writes ws l) k = Some v.
  Proof.
    revert l; induction ws as [|[j u] ws IH]; intros l ND HI HL; simpl in *; [tauto|].
    inversion ND as [|? ? NI ND']; subst.
    destruct HI as [E|HI].
    - injection E as -> ->.
      change (nth_error (writes ws (list_upd k v l)) k = Some v).
      rewrite writes_notin by exact NI; apply list_upd_same; exact HL.
    - change (nth_error (writes ws (list_upd j u l)) k = Some v).
      apply IH; auto; rewrite list_upd_length; exact HL.
  Qed.

  (** Distinct targets: the order of the writes is irrelevant. *)
  Lemma writes_perm ws ws' l :
    NoDup (map fst ws) -> Permutation ws ws' -> writes ws l = writes ws' l.
  Proof.
    intros ND HP; revert l ND; induction HP as [|[k v] ws ws' HP IH|[k v] [j u] ws|ws1 ws2 ws3 HP1 IH1 HP2 IH2];
      intros l ND; simpl in *; auto.
    - inversion ND; subst; unfold writes in *; simpl; apply IH; auto.
    - inversion ND as [|? ? NI ND']; subst; unfold writes; simpl.
      rewrite list_upd_comm; auto; simpl in NI; intros ->; tauto.
    - rewrite IH1 by exact ND; apply IH2.
      eapply Permutation_NoDup; [apply Permutation_map, HP1 | exact ND].
  Qed.
End ListUpd.

(** ** Lemmas on loops *)
Lemma for_list_app {I S} (l1 l2 : list I) (body : I -> S -> res S) s :
  for_list (l1 ++ l2) body s = let* s' := for_list l1 body s in for_list l2 body s'.
Proof.
  revert s; induction l1 as [|i l1 IH]; intros s; simpl; auto.
  destruct (body i s); simpl; auto.
Qed.

Lemma for_list_ext {I S} (l : list I) (b1 b2 : I -> S -> res S) s :
  (forall i s, In i l -> b1 i s = b2 i s) -> for_list l b1 s = for_list l b2 s.
Proof.
  revert s; induction l as [|i l IH]; intros s H; simpl; auto.
  rewrite (H i s) by (left; auto).
  destruct (b2 i s); simpl; auto; apply IH; intros; apply H; right; auto.
Qed.

Lemma for_list_map {I J S} (f : J -> I) (l : list J) (body : I -> S -> res S) s :
  for_list (map f l) body s = for_list l (fun j => body (f j)) s.
Proof.
  revert s; induction l as [|j l IH]; intros s; simpl; auto.
  destruct (body (f j) s); simpl; auto.
Qed.

(** Nested loops as one loop over pairs, in the same order. *)
Definition pairs {I J} (ys : list I) (xs : I -> list J) : list (I * J) :=
  flat_map (fun y => map (pair y) (xs y)) ys.

Lemma for_list_nested {I J S} (ys : list I) (xs : I -> list J) (b : I -> J -> S -> res S) s :
  for_list ys (fun y s => for_list (xs y) (fun x s => b y x s) s) s =
  for_list (pairs ys xs) (fun p s => b (fst p) (snd p) s) s.
Proof.
  revert s; induction ys as [|y ys IH]; intros s; simpl; auto.
  unfold pairs; simpl; rewrite for_list_app, for_list_map; simpl.
  destruct (for_list (xs y) (fun x s0 => b y x s0) s); simpl; auto.
Qed.

Lemma in_pairs {I J} (ys : list I) (xs : I -> list J) p :
  In p (pairs ys xs) <-> In (fst p) ys /\ In (snd p) (xs (fst p)).
Proof.
  destruct p as [y x]; unfold pairs; rewrite in_flat_map; simpl; split.
  - intros (y' & Hy & Hx); apply in_map_iff in Hx; destruct Hx as (x' & E & Hx).
    injection E as -> ->; auto.
  - intros [Hy Hx]; exists y; split; auto; apply in_map; auto.
Qed.

Lemma NoDup_app {A} (l1 l2 : list A) :
  NoDup l1 -> NoDup l2 -> (forall a, In a l1 -> ~ In a l2) -> NoDup (l1 ++ l2).
Proof.
  induction l1 as [|a l1 IH]; intros H1 H2 H; simpl; auto.
  inversion H1 as [|? ? NI ND]; subst; constructor.
  - rewrite in_app_iff; intros [Hl|Hr]; [tauto|]. apply (H a); simpl; auto.
  - apply IH; auto; intros b Hb; apply H; right; auto.
Qed.

Lemma NoDup_map_inj {A B} (f : A -> B) l :
  (forall a b, In a l -> In b l -> f a = f b -> a = b) -> NoDup l -> NoDup (map f l).
Proof.
  induction l as [|a l IH]; intros Hinj ND; simpl; [constructor|].
  inversion ND as [|? ? NI ND']; subst; constructor.
  - rewrite in_map_iff; intros (b & E & Hb); apply NI.
    rewrite <- (Hinj b a); simpl; auto.
  - apply IH; auto; intros; apply Hinj; simpl; auto.
Qed.

Lemma NoDup_pairs {I J} (ys : list I) (xs : I -> list J) :
  NoDup ys -> (forall y, In y ys -> NoDup (xs y)) -> NoDup (pairs ys xs).
Proof.
  unfold pairs; induction ys as [|y ys IH]; intros ND H; simpl; [constructor|].
  inversion ND as [|? ? NI ND']; subst; apply NoDup_app.
  - apply NoDup_map_inj; [intros a b _ _ E; congruence | apply H; simpl; auto].
  - apply IH; auto; intros; apply H; simpl; auto.
  - intros [y' x'] Hl Hr; apply in_map_iff in Hl; destruct Hl as (x0 & E & _).
    injection E as <- <-; apply in_flat_map in Hr; destruct Hr as (y1 & Hy1 & Hx).
    apply in_map_iff in Hx; destruct Hx as (? & E & _); injection E as -> _; tauto.
Qed.

(** A loop whose step is always [Ok (f i s)] under an invariant. *)
Lemma for_list_fold {I S} (Inv : S -> Prop) (f : I -> S -> S) (l : list I) (body : I -> S -> res S) s :
  Inv s ->
  (forall i s, In i l -> Inv s -> body i s = Ok (f i s) /\ Inv (f i s)) ->
  for_list l body s = Ok (fold_left (fun s i => f i s) l s) /\ Inv (fold_left (fun s i => f i s) l s).
Proof.
  revert s; induction l as [|i l IH]; intros s Hs H; simpl; auto.
  destruct (H i s) as [E Hi]; simpl; auto; rewrite E; simpl.
  apply IH; auto; intros; apply H; simpl; auto.
Qed.

(** Invariant rule for a loop over [0, n). *)
Lemma for_range_inv {S} (n : nat) (Inv : nat -> S -> Prop) (body : nat -> S -> res S) s :
  Inv 0 s ->
  (forall i s, i < n -> Inv i s -> exists s', body i s = Ok s' /\ Inv (Datatypes.S i) s') ->
  exists s', for_range n body s = Ok s' /\ Inv n s'.
Proof.
  intros H0 Hstep; unfold for_range.
  assert (G : forall k i s, i + k = n -> Inv i s ->
              exists s', for_list (seq i k) body s = Ok s' /\ Inv n s').
  { induction k as [|k IH]; intros i s1 E Hi; simpl.
    - exists s1; split; auto; replace n with i by lia; auto.
    - destruct (Hstep i s1) as (s2 & E2 & H2); try lia; auto; rewrite E2; simpl.
      apply (IH (Datatypes.S i)); auto; lia. }
  apply (G n 0); auto.
Qed.

Lemma mapM_ok {A B} (f : A -> res B) (g : A -> B) l :
  (forall a, In a l -> f a = Ok (g a)) -> mapM f l = Ok (map g l).
Proof.
  induction l as [|a l IH]; intros H; simpl; auto.
  rewrite H by (simpl; auto); simpl; rewrite IH by (intros; apply H; simpl; auto); reflexivity.
Qed.

Lemma mapM_length {A B} (f : A -> res B) l l' : mapM f l = Ok l' -> length l' = length l.
Proof.
  revert l'; induction l as [|a l IH]; intros l' H; simpl in *.
  - injection H as <-; reflexivity.
  - destruct (f a); simpl in H; try discriminate.
    destruct (mapM f l); simpl in H; try discriminate.
    injection H as <-; simpl; f_equal; auto.
Qed.

Lemma nth_error_map_some {A B} (f : A -> B) l k v :
  nth_error l k = Some v -> nth_error (map f l) k = Some (f v).
Proof. intros H; rewrite nth_error_map, H; reflexivity. Qed.

Lemma nth_error_seq s n k : k < n -> nth_error (seq s n) k = Some (s + k).
Proof.
  revert s k; induction n as [|n IH]; intros s [|k] H; simpl; try lia; auto.
  rewrite IH by lia; f_equal; lia.
Qed.

Lemma nth_error_repeat_some {A} (a : A) n k : k < n -> nth_error (repeat a n) k = Some a.
Proof. revert k; induction n as [|n IH]; intros [|k] H; simpl; try lia; auto; apply IH; lia. Qed.

(** ** size_t arithmetic *)
Definition fits (n : nat) : Prop := (Z.of_nat n < two64)%Z.

Lemma usub_le a b : fits a -> b <= a -> usub a b = a - b.
Proof.
  intros Ha Hb; unfold usub, wn, w64, fits in *; rewrite Z.mod_small by lia; lia.
Qed.

Lemma usub_gt a b : fits b -> a < b -> Z.of_nat (usub a b) = (two64 + Z.of_nat a - Z.of_nat b)%Z.
Proof.
  intros Hb Ha; unfold usub, wn, w64, fits in *.
  replace (Z.of_nat a - Z.of_nat b)%Z with ((two64 + Z.of_nat a - Z.of_nat b) + (-1) * two64)%Z by lia.
  rewrite Z.mod_add by (unfold two64; lia); rewrite Z.mod_small by lia; lia.
Qed.

Lemma uadd_fits a b : fits (a + b) -> uadd a b = a + b.
Proof. intros H; unfold uadd, wn, w64, fits in *; rewrite Z.mod_small by lia; lia. Qed.

(** the index pairs (y, x) of a doubly nested loop, y outer *)
Definition grid (h w : nat) : list (nat * nat) := pairs (seq 0 h) (fun _ => seq 0 w).

Lemma in_grid h w p : In p (grid h w) <-> fst p < h /\ snd p < w.
Proof. unfold grid; rewrite in_pairs, !in_seq; lia. Qed.

Lemma NoDup_grid h w : NoDup (grid h w).
Proof. apply NoDup_pairs; intros; apply seq_NoDup. Qed.

(** A schedule of a doubly nested parallel loop: some order of the index pairs. *)
Definition sched_ok (sg : nat -> nat -> list (nat * nat)) : Prop :=
  forall h w, Permutation (sg h w) (grid h w).

Lemma sched_ok_grid : sched_ok grid.
Proof. intros h w; apply Permutation_refl. Qed.

Lemma sched_in sg h w p : sched_ok sg -> In p (sg h w) <-> fst p < h /\ snd p < w.
Proof.
  intros H; rewrite <- in_grid; split; intros HI.
  - eapply Permutation_in; [apply H | exact HI].
  - eapply Permutation_in; [apply Permutation_sym, H | exact HI].
Qed.

Lemma for_range_nested {S} h w (b : nat -> nat -> S -> res S) s :
  for_range h (fun y s => for_range w (fun x s => b y x s) s) s =
  for_list (grid h w) (fun p s => b (fst p) (snd p) s) s.
Proof. unfold for_range, grid; apply for_list_nested. Qed.
