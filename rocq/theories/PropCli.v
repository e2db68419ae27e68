(** PropCli.v - names, workspace, policies, registry: C59, C60, C61, C64, C66, C82. *)
From Coq Require Import Ascii String Sorting.Sorted.
From Verif Require Import Base CliModel CliProofs.
Open Scope nat_scope.

(** ** C60  Name sanitising *)
(** blanks and quotes: tab, line feed, vertical tab, form feed, carriage return, space, and the two quotes *)
Definition junk (c : ascii) : Prop := In (nat_of_ascii c) [9; 10; 11; 12; 13; 32; 34; 39].
(** [t] is [s] without the blanks and quotes at its ends *)
Definition trimmed (s t : str) : Prop :=
  exists pre post, s = pre ++ t ++ post /\ Forall junk pre /\ Forall junk post
  /\ (forall c r, t = c :: r -> ~ junk c) /\ (forall r c, t = r ++ [c] -> ~ junk c).

Lemma is_junk_spec c : is_junk c = true <-> junk c.
Proof.
  unfold is_junk, isspace, junk. rewrite !Bool.orb_true_iff, !Bool.andb_true_iff, !Nat.leb_le, !Nat.eqb_eq. simpl. split.
  - intros H. assert (D : nat_of_ascii c = 9 \/ nat_of_ascii c = 10 \/ nat_of_ascii c = 11 \/ nat_of_ascii c = 12 \/ nat_of_ascii c = 13
      \/ nat_of_ascii c = 32 \/ nat_of_ascii c = 34 \/ nat_of_ascii c = 39) by lia. intuition.
  - intros H. lia.
Qed.
Lemma not_junk c : is_junk c = false <-> ~ junk c.
Proof. rewrite <- is_junk_spec. destruct (is_junk c); split; congruence. Qed.
Lemma trimmed_clean s t : trimmed s t <-> exists pre post, s = pre ++ t ++ post /\ Forall (fun c => is_junk c = true) pre
  /\ Forall (fun c => is_junk c = true) post /\ clean_ends t.
Proof.
  assert (F : forall l, Forall junk l <-> Forall (fun c => is_junk c = true) l)
    by (intros l; split; apply Forall_impl; intros c; apply is_junk_spec).
  unfold trimmed, clean_ends. split; intros (pre & post & E & A & B & C & D); exists pre, post; (split; [exact E|]); rewrite ?F in *;
    (split; [assumption|]); (split; [assumption|]).
  - split; intros; apply not_junk; eauto.
  - split; intros; apply not_junk; eauto.
Qed.

Theorem C60_sanitize : forall s t, sanitize s = t <-> trimmed s t.
Proof.
  intros s t. rewrite trimmed_clean. split.
  - intros <-. apply sanitize_spec.
  - intros (pre & post & -> & A & B & C). apply sanitize_uniq; assumption.
Qed.
Print Assumptions C60_sanitize.
Theorem C60_idempotent : forall s, sanitize (sanitize s) = sanitize s.
Proof. apply sanitize_idem. Qed.
Print Assumptions C60_idempotent.
(** a name in quotes, with a blank inside *)
Example C60_case : sanitize (lit " 'my var' ") = lit "my var".
Proof. reflexivity. Qed.

(** ** C59  The workspace *)
(** what is asked of it, in terms of trimmed names *)
Inductive request (V : Type) :=
| Put (n : str) (v : any V)
| Drop (n : str)
| Move (a b : str)
| DropAll.
Arguments Put {V}. Arguments Drop {V}. Arguments Move {V}. Arguments DropAll {V}.
(** the map the user has in mind *)
Definition meant {V} (q : request V) (m : str -> option (any V)) (n : str) : option (any V) :=
  match q with
  | Put k v => if eqs n k then Some v else m n
  | Drop k => if eqs n k then None else m n
  | Move a b => match m a with None => m n | Some v => if eqs n b then Some v else if eqs n a then None else m n end
  | DropAll => None
  end.
(** the call, with names as they are typed *)
Inductive asks {V} : request V -> (workspace V -> workspace V) -> Prop :=
| asks_put s n v : trimmed s n -> asks (Put n v) (ws_store V s v)
| asks_drop s n : trimmed s n -> asks (Drop n) (fun w => snd (ws_remove V s w))
| asks_move s a s' b : trimmed s a -> trimmed s' b -> a <> b -> asks (Move a b) (fun w => snd (ws_rename V s s' w))
| asks_clear : asks DropAll (ws_clear V).

Lemma meant_step {V} (q : request V) f w m : asks q f -> (forall n, map_find n w = m n) -> forall n, map_find n (f w) = meant q m n.
Proof.
  intros A H n. destruct A as [s k v T|s k T|s a s' b T T' N|]; simpl.
  - apply C60_sanitize in T. unfold ws_store. rewrite T, find_set, H. reflexivity.
  - apply C60_sanitize in T. unfold ws_remove. rewrite T. destruct (map_find k w) eqn:E; simpl.
    + rewrite find_erase, H. reflexivity.
    + rewrite H. destruct (eqs_spec n k) as [->|]; [rewrite <- H; exact E|reflexivity].
  - apply C60_sanitize in T, T'. unfold ws_rename. rewrite T, T'. rewrite <- H. destruct (map_find a w) eqn:E; simpl; [|apply H].
    rewrite find_erase, find_set, H. destruct (eqs_spec n a) as [Ha|Ha]; destruct (eqs_spec n b) as [Hb|Hb]; try reflexivity. congruence.
  - reflexivity.
Qed.
Fixpoint meant_all {V} (qs : list (request V)) (m : str -> option (any V)) : str -> option (any V) :=
  match qs with [] => m | q :: qs => meant_all qs (meant q m) end.
Lemma meant_history {V} (qs : list (request V)) : forall fs w m, Forall2 asks qs fs -> (forall n, map_find n w = m n) ->
  forall n, map_find n (fold_left (fun w f => f w) fs w) = meant_all qs m n.
Proof.
  induction qs as [|q qs IH]; intros fs w m A H n; inversion A; subst; simpl; [apply H|].
  apply IH; [assumption|]. apply meant_step; assumption.
Qed.

(** After any history of calls, except renaming a variable to its own name, retrieving gives what the user has in mind.
    Missing from C59: renaming a variable to itself, for which it is false. *)
Theorem C59_history_partial : forall (V : Type) (qs : list (request V)) fs s n,
  Forall2 asks qs fs -> trimmed s n ->
  let w := fold_left (fun w f => f w) fs [] in
  let m := meant_all qs (fun _ => None) in
  ws_retrieve_any V s w = m n
  /\ forall T, ws_retrieve V T s w = match m n with Some (t, v) => if t =? T then Some v else None | None => None end.
Proof.
  intros V qs fs s n A T w m. apply C60_sanitize in T.
  assert (E : map_find n w = m n) by (apply meant_history; [exact A|reflexivity]).
  unfold ws_retrieve_any, ws_retrieve. rewrite T, E. auto.
Qed.
Print Assumptions C59_history_partial.
(** remove and rename tell whether the variable was there *)
Theorem C59_found : forall (V : Type) (w : workspace V) s s' n, trimmed s n ->
  fst (ws_remove V s w) = match ws_retrieve_any V s w with Some _ => true | None => false end
  /\ fst (ws_rename V s s' w) = match ws_retrieve_any V s w with Some _ => true | None => false end.
Proof. intros V w s s' n T. unfold ws_remove, ws_rename, ws_retrieve_any. destruct (map_find (sanitize s) w); auto. Qed.
Print Assumptions C59_found.
(** no name occurs twice, and the names come in order *)
Theorem C59_listing : forall (V : Type) (qs : list (request V)) fs, Forall2 asks qs fs ->
  let w := fold_left (fun w f => f w) fs [] in
  NoDup (map fst w) /\ forall n v, In (n, v) w <-> ws_retrieve_any V n w = Some v /\ sanitize n = n.
Proof.
  intros V qs fs A w.
  assert (S : sorted_map w /\ Forall (fun e : str * any V => sanitize (fst e) = fst e) w).
  { unfold w. assert (H : sorted_map (@nil (str * any V)) /\ Forall (fun e : str * any V => sanitize (fst e) = fst e) []) by (repeat constructor).
    revert H. generalize (@nil (str * any V)). revert fs A w. induction qs as [|q qs IH]; intros fs A w0 w [S Fw]; inversion A; subst; simpl; [auto|].
    assert (Er : forall k (m : workspace V), Forall (fun e : str * any V => sanitize (fst e) = fst e) m -> Forall (fun e => sanitize (fst e) = fst e) (map_erase k m)).
    { intros k m Q. apply Forall_forall. intros x I. apply filter_In in I. eapply Forall_forall in Q; [exact Q|apply I]. }
    apply IH; [assumption|]. destruct H1; simpl.
    - split; [apply set_sorted, S|]. apply set_forall; [apply sanitize_idem|exact Fw].
    - unfold ws_remove. destruct (map_find (sanitize s) w); simpl; [split; [apply erase_sorted, S|apply Er, Fw]|auto].
    - unfold ws_rename. destruct (map_find (sanitize s) w); simpl; [|auto]. split; [apply erase_sorted, set_sorted, S|].
      apply Er, set_forall; [apply sanitize_idem|exact Fw].
    - split; constructor. }
  destruct S as [S Fw]. split.
  - clear A Fw. induction S as [|e m S IH F]; simpl; constructor; [|exact IH]. intros I. apply in_map_iff in I. destruct I as (x & Ex & Ix).
    eapply Forall_forall in F; [|exact Ix]. rewrite Ex, lts_irrefl in F. discriminate.
  - intros n v. unfold ws_retrieve_any. split.
    + intros I. assert (C : sanitize n = n) by exact (proj1 (Forall_forall _ _) Fw (n, v) I). rewrite C. split; [apply find_in; assumption|reflexivity].
    + intros [E C]. rewrite C in E. apply find_in; assumption.
Qed.
Print Assumptions C59_listing.
(** a variable that is renamed to itself is lost *)
Theorem C59_rename_self_refuted : exists (w : workspace nat) s,
  ws_retrieve nat 0 s w = Some 7 /\ fst (ws_rename nat s s w) = true /\ ws_retrieve nat 0 s (snd (ws_rename nat s s w)) = None.
Proof. exists (ws_store nat (lit "x") (0, 7) []), (lit "x"). repeat split. Qed.
Print Assumptions C59_rename_self_refuted.
(** two variables, one renamed, one stored again with quotes around its name *)
Example C59_case :
  let fs := [ws_store nat (lit "a") (0, 1); ws_store nat (lit "'b'") (1, 2); fun w => snd (ws_rename nat (lit "a") (lit "c") w); ws_store nat (lit "b") (1, 5)] in
  Forall2 asks [Put (lit "a") (0, 1); Put (lit "b") (1, 2); Move (lit "a") (lit "c"); Put (lit "b") (1, 5)] fs
  /\ let w := fold_left (fun w f => f w) fs [] in
     ws_retrieve nat 0 (lit "a") w = None /\ ws_retrieve nat 0 (lit "c") w = Some 1 /\ ws_retrieve nat 1 (lit "b") w = Some 5 /\ ws_retrieve nat 0 (lit "b") w = None.
Proof.
  split; [|repeat split]. repeat constructor; try apply C60_sanitize; try reflexivity. discriminate.
Qed.

(** ** C61  Policy words *)
Definition policy_word (a : str) : Prop := In a [lit "seq"; lit "par"; lit "par_unseq"; lit "unseq"].
(** the policy words and the other arguments, each in their order *)
Inductive parted : list str -> list str -> list str -> Prop :=
| parted_nil : parted [] [] []
| parted_policy a l p o : policy_word a -> parted l p o -> parted (a :: l) (a :: p) o
| parted_other a l p o : ~ policy_word a -> parted l p o -> parted (a :: l) p (a :: o).

Lemma is_policy_spec a : is_policy a = true <-> policy_word a.
Proof.
  unfold is_policy, policy_word, policies. rewrite existsb_exists. split.
  - intros (x & I & E). apply eqs_eq in E. subst x. exact I.
  - intros I. exists a. split; [exact I|apply eqs_refl].
Qed.
Theorem C61_filter : forall args p o, parted args p o ->
  args_filter args = o /\ extract_policy args = hd [] p /\ scalar_args args = (last p [], o).
Proof.
  intros args p o H. rewrite scalar_args_spec.
  assert (E : args_filter args = o /\ extract_policy args = hd [] p /\ filter is_policy args = p).
  { unfold args_filter. induction H as [|a l p o W _ (A & B & C)|a l p o W _ (A & B & C)]; simpl; [auto| |].
    - apply is_policy_spec in W. rewrite W. simpl. rewrite C. auto.
    - destruct (is_policy a) eqn:E; [apply is_policy_spec in E; contradiction|]. simpl. rewrite A. auto. }
  destruct E as (-> & -> & ->). auto.
Qed.
Print Assumptions C61_filter.
(** every list of arguments is parted in one way *)
Theorem C61_total : forall args, exists p o, parted args p o.
Proof.
  induction args as [|a l (p & o & H)]; [exists [], []; constructor|].
  destruct (is_policy a) eqn:E.
  - exists (a :: p), o. constructor; [apply is_policy_spec, E|exact H].
  - exists p, (a :: o). constructor; [rewrite <- is_policy_spec, E; discriminate|exact H].
Qed.
Print Assumptions C61_total.
Example C61_case : args_filter [lit "par"; lit "$a"; lit "seq"; lit "3"] = [lit "$a"; lit "3"]
  /\ extract_policy [lit "par"; lit "$a"; lit "seq"; lit "3"] = lit "par" /\ fst (scalar_args [lit "par"; lit "$a"; lit "seq"; lit "3"]) = lit "seq".
Proof. repeat split. Qed.

(** ** C82  Boolean arguments *)
(** the same letters, in small or capital *)
Definition same_letter (c d : ascii) : Prop :=
  c = d \/ (exists k, k < 26 /\ nat_of_ascii c = 65 + k /\ nat_of_ascii d = 97 + k) \/ (exists k, k < 26 /\ nat_of_ascii c = 97 + k /\ nat_of_ascii d = 65 + k).
Lemma to_lower_spec c d : to_lower c = to_lower d <-> same_letter c d.
Proof.
  unfold to_lower, same_letter. split.
  - destruct ((65 <=? nat_of_ascii c) && (nat_of_ascii c <=? 90)) eqn:A, ((65 <=? nat_of_ascii d) && (nat_of_ascii d <=? 90)) eqn:B; intros E.
    + left. apply nat_of_ascii_inj. lia.
    + right. left. exists (nat_of_ascii c - 65). lia.
    + right. right. exists (nat_of_ascii d - 65). lia.
    + left. apply nat_of_ascii_inj. lia.
  - intros [->|[(k & L & A & B)|(k & L & A & B)]]; [reflexivity| |]; rewrite A, B.
    + replace ((65 <=? 65 + k) && (65 + k <=? 90)) with true by lia. replace ((65 <=? 97 + k) && (97 + k <=? 90)) with false by lia. lia.
    + replace ((65 <=? 65 + k) && (65 + k <=? 90)) with true by lia. replace ((65 <=? 97 + k) && (97 + k <=? 90)) with false by lia. lia.
Qed.
Lemma iequals_spec a : forall b, iequals a b = true <-> Forall2 same_letter a b.
Proof.
  induction a as [|c a IH]; intros [|d b]; simpl; try (split; [discriminate|intros H; inversion H]); [split; constructor|].
  rewrite Bool.andb_true_iff, Nat.eqb_eq, to_lower_spec, IH. split; [intros [A B]; constructor; assumption|intros H; inversion H; auto].
Qed.
Definition says_true (t : str) : Prop := t = lit "1" \/ Forall2 same_letter t (lit "true").
Definition says_false (t : str) : Prop := t = lit "0" \/ Forall2 same_letter t (lit "false").
Lemma Forall2_len {A B} (R : A -> B -> Prop) l l' : Forall2 R l l' -> length l = length l'.
Proof. induction 1; simpl; congruence. Qed.
Theorem C82_boolean : forall s t, trimmed s t ->
  (parse_bool s = Ok true <-> says_true t) /\ (parse_bool s = Ok false <-> says_false t)
  /\ (parse_bool s = Throw InvalidArgument <-> ~ says_true t /\ ~ says_false t).
Proof.
  intros s t T. apply C60_sanitize in T. unfold parse_bool, says_true, says_false. rewrite T. rewrite <- !iequals_spec, <- !eqs_eq.
  assert (D : (eqs t (lit "1") = true \/ iequals t (lit "true") = true) -> ~ (eqs t (lit "0") = true \/ iequals t (lit "false") = true)).
  { intros A B. rewrite !eqs_eq, !iequals_spec in A, B. destruct A as [->|A], B as [B|B]; try discriminate.
    all: repeat match goal with H : Forall2 _ _ _ |- _ => apply Forall2_len in H end; try rewrite B in A; simpl in *; lia. }
  destruct (eqs t (lit "1") || iequals t (lit "true")) eqn:A.
  - apply Bool.orb_true_iff in A. specialize (D A). repeat split; intros; try congruence; tauto.
  - apply Bool.orb_false_iff in A. destruct A as [A1 A2]. rewrite A1, A2 in *.
    destruct (eqs t (lit "0") || iequals t (lit "false")) eqn:B.
    + apply Bool.orb_true_iff in B. repeat split; intros; try congruence; intuition congruence.
    + apply Bool.orb_false_iff in B. destruct B as [B1 B2]. rewrite B1, B2 in *. repeat split; intros; try congruence; intuition congruence.
Qed.
Print Assumptions C82_boolean.
Example C82_case : parse_bool (lit " 'TruE'") = Ok true /\ parse_bool (lit "0") = Ok false /\ parse_bool (lit "yes") = Throw InvalidArgument.
Proof. repeat split. Qed.

(** ** C64  The registry *)
Section Registry.
  Variable V F : Type.
  Definition registration := (str * schema * handler V F)%type.
  Definition register_all (l : list registration) : registry V F :=
    fold_left (fun r e => register_command V F (fst (fst e)) (snd (fst e)) (snd e) r) l [].
  (** the first registration of a name *)
  Inductive first_for (n : str) : list registration -> schema * handler V F -> Prop :=
  | first_here sc h l : first_for n ((n, sc, h) :: l) (sc, h)
  | first_later n' sc' h' l x : n' <> n -> first_for n l x -> first_for n ((n', sc', h') :: l) x.
  Lemma register_find (l : list registration) : forall (r : registry V F) n,
    map_find n (fold_left (fun r e => register_command V F (fst (fst e)) (snd (fst e)) (snd e) r) l r)
    = match map_find n r with Some x => Some x | None => option_map (fun e => (snd (fst e), snd e)) (find (fun e => eqs n (fst (fst e))) l) end.
  Proof.
    induction l as [|[[k sc] h] l IH]; intros r n; simpl; [destruct (map_find n r); reflexivity|].
    rewrite IH. unfold register_command. rewrite find_emplace. destruct (map_find n r); [reflexivity|]. simpl.
    destruct (eqs n k); reflexivity.
  Qed.
  Lemma first_find n l x : first_for n l x -> option_map (fun e => (snd (fst e), snd e)) (find (fun e : registration => eqs n (fst (fst e))) l) = Some x.
  Proof.
    induction 1 as [sc h l|n' sc' h' l x N _ IH]; simpl; [rewrite eqs_refl; reflexivity|].
    destruct (eqs_spec n n'); [congruence|exact IH].
  Qed.
End Registry.
Theorem C64_first : forall (V F : Type) (l : list (registration V F)) n sc h, first_for V F n l (sc, h) ->
  get_schema V F (register_all V F l) n = Some sc
  /\ forall args st, execute V F (register_all V F l) n args st = h args st.
Proof.
  intros V F l n sc h H. apply first_find in H. assert (E := register_find V F l [] n). simpl map_find in E.
  fold (register_all V F l) in E. unfold registry in *. cbn iota in E. assert (G := eq_trans E H). unfold get_schema, execute. rewrite G. auto.
Qed.
Print Assumptions C64_first.
Theorem C64_unknown : forall (V F : Type) (l : list (registration V F)) n, ~ In n (map (fun e => fst (fst e)) l) ->
  get_schema V F (register_all V F l) n = None
  /\ forall args st, execute V F (register_all V F l) n args st = st.
Proof.
  intros V F l n N.
  assert (E : find (fun e : registration V F => eqs n (fst (fst e))) l = None).
  { induction l as [|e l IH]; [reflexivity|]. simpl. destruct (eqs_spec n (fst (fst e))) as [->|]; [exfalso; apply N; left; reflexivity|].
    apply IH. intros I. apply N. right. exact I. }
  assert (G := register_find V F l [] n). simpl map_find in G. fold (register_all V F l) in G. cbn iota in G.
  assert (G' := eq_trans G (f_equal _ E)). unfold get_schema, execute. rewrite G'. auto.
Qed.
Print Assumptions C64_unknown.
(** a plugin that registers a name again is not used *)
Example C64_case :
  let h k : handler nat unit := fun _ st => mkState nat unit (ws_store nat (lit "x") (0, k) (vars nat unit st)) tt in
  let l := [(lit "b", IndependentSchema, h 1); (lit "a", TransformerSchema, h 2); (lit "b", GeneratorSchema, h 3)] in
  first_for nat unit (lit "b") l (IndependentSchema, h 1)
  /\ get_schema nat unit (register_all nat unit l) (lit "b") = Some IndependentSchema
  /\ ws_retrieve nat 0 (lit "x") (vars nat unit (execute nat unit (register_all nat unit l) (lit "b") [] (mkState nat unit [] tt))) = Some 1.
Proof. split; [constructor|split; reflexivity]. Qed.

(** ** C66  Threads that share a workspace *)
(** the call stores, removes or renames a variable of this name, or clears the workspace *)
Definition touches {V} (n : str) (c : call V) : Prop :=
  match c with
  | CStore _ s _ => trimmed s n
  | CRemove _ s => trimmed s n
  | CRename _ a b => trimmed a n \/ trimmed b n
  | CClear _ => True
  | CRetrieve _ _ _ => False
  | CRead _ => False
  end.
Definition is_retrieve {V} (c : call V) : bool := match c with CRetrieve _ _ _ => true | _ => false end.
Definition no_calls {V} : shared V := mkShared V [] 0 (fun _ => None) [].

Lemma in_set {A} k (v : A) m : forall x, In x (map_set k v m) -> x = (k, v) \/ In x m.
Proof.
  induction m as [|[k' v'] m IH]; simpl; intros x H; [destruct H as [H|[]]; auto|].
  destruct (eqs k k'); [destruct H as [H|H]; auto|]. destruct (lts k k'); destruct H as [H|H]; auto.
  destruct (IH _ H); auto.
Qed.
Lemma in_erase {A} k (m : list (str * A)) x : In x (map_erase k m) -> In x m.
Proof. intros I. apply filter_In in I. apply I. Qed.
Lemma found_in {A} k (v : A) m : map_find k m = Some v -> In (k, v) m.
Proof.
  induction m as [|[k' v'] m IH]; simpl; [discriminate|]. destruct (eqs_spec k k') as [->|]; [intros [= ->]; auto|auto].
Qed.
Definition one_owner {V} (s : shared V) : Prop :=
  (forall e, In e (cells V s) -> fst (snd e) < fresh_id V s)
  /\ (forall e e', In e (cells V s) -> In e' (cells V s) -> fst (snd e) = fst (snd e') -> e = e').
Lemma owner_set {V} k (a : any V) s p o : one_owner s -> one_owner (mkShared V (map_set k (fresh_id V s, a) (cells V s)) (S (fresh_id V s)) p o).
Proof.
  intros [A B]. split; simpl.
  - intros e I. apply in_set in I. destruct I as [->|I]; [simpl; lia|]. specialize (A e I). lia.
  - intros e e' I I' E. apply in_set in I, I'. destruct I as [->|I], I' as [->|I']; simpl in *; auto.
    + specialize (A e' I'). lia.
    + specialize (A e I). lia.
Qed.
Lemma owner_erase {V} k c i p o : one_owner (mkShared V c i p o) -> one_owner (mkShared V (map_erase k c) i p o).
Proof.
  intros [A B]. split; simpl in *.
  - intros e I. apply in_erase in I. auto.
  - intros e e' I I'. apply in_erase in I. apply in_erase in I'. auto.
Qed.
Lemma owner_step {V} t (c : call V) s : one_owner s -> one_owner (call_step V t c s).
Proof.
  intros O. destruct c as [n a|n|a b| |T n|]; simpl.
  - apply owner_set, O.
  - apply owner_erase. exact O.
  - destruct (map_find (sanitize a) (cells V s)) as [[i x]|]; [|exact O]. apply owner_erase, owner_set, O.
  - split; simpl; intros; contradiction.
  - exact O.
  - destruct (pointers V s t); exact O.
Qed.
Lemma owner_run {V} (l : list (nat * call V)) : forall s, one_owner s -> one_owner (run_calls V l s).
Proof. induction l as [|e l IH]; intros s O; simpl; [exact O|]. apply IH, owner_step, O. Qed.
Lemma keep_step {V} t n (c : call V) s : ~ touches n c -> map_find n (cells V (call_step V t c s)) = map_find n (cells V s).
Proof.
  intros N. destruct c as [k a|k|a b| |T k|]; simpl in *.
  - rewrite <- C60_sanitize in N. rewrite find_set. destruct (eqs_spec n (sanitize k)); [congruence|reflexivity].
  - rewrite <- C60_sanitize in N. rewrite find_erase. destruct (eqs_spec n (sanitize k)); [congruence|reflexivity].
  - rewrite <- !C60_sanitize in N. destruct (map_find (sanitize a) (cells V s)) as [[i x]|]; [|reflexivity]. simpl.
    rewrite find_erase, find_set. destruct (eqs_spec n (sanitize a)); [exfalso; apply N; left; congruence|].
    destruct (eqs_spec n (sanitize b)); [exfalso; apply N; right; congruence|reflexivity].
  - exfalso. apply N. exact I.
  - reflexivity.
  - destruct (pointers V s t); reflexivity.
Qed.
Lemma keep_run {V} n t (l : list (nat * call V)) : forall s, Forall (fun e => ~ touches n (snd e)) l ->
  Forall (fun e => fst e = t -> is_retrieve (snd e) = false) l ->
  map_find n (cells V (run_calls V l s)) = map_find n (cells V s) /\ pointers V (run_calls V l s) t = pointers V s t.
Proof.
  induction l as [|[u c] l IH]; intros s A B; simpl; [auto|]. inversion A; inversion B; subst. simpl in *.
  destruct (IH (call_step V u c s)) as [E P]; [assumption|assumption|]. rewrite E, P. split; [apply keep_step; assumption|].
  destruct c; simpl; try reflexivity.
  - destruct (map_find (sanitize old_name) (cells V s)) as [[]|]; reflexivity.
  - destruct (Nat.eqb_spec t u); [subst; simpl in *; specialize (H5 eq_refl); discriminate|reflexivity].
  - destruct (pointers V s u); reflexivity.
Qed.

(** However the calls of the threads interleave, a thread that has retrieved a variable reads its value, as long as no
    thread has stored, removed or renamed it, or cleared the workspace, in between.  Missing from C66: the other case, in
    which the read is of an object that has ended. *)
Theorem C66_pointer_partial : forall (V : Type) (before mid : list (nat * call V)) t T s n v,
  trimmed s n ->
  let s0 := run_calls V before no_calls in
  option_map snd (map_find n (cells V s0)) = Some (T, v) ->
  Forall (fun e => ~ touches n (snd e)) mid -> Forall (fun e => fst e = t -> is_retrieve (snd e) = false) mid ->
  let s1 := run_calls V ((t, CRetrieve V T s) :: mid) s0 in
  seen V (call_step V t (CRead V) s1) = (t, Ok v) :: seen V s1.
Proof.
  intros V before mid t T s n v Tr s0 H A B s1. apply C60_sanitize in Tr.
  destruct (map_find n (cells V s0)) as [[id [T' v']]|] eqn:E; [|discriminate]. simpl in H. injection H as -> ->.
  assert (O : one_owner s1) by (apply owner_run, owner_run; split; simpl; intros; contradiction).
  set (sr := call_step V t (CRetrieve V T s) s0).
  change s1 with (run_calls V mid sr) in *. clear s1.
  destruct (keep_run n t mid sr A B) as [F P].
  assert (Pr : pointers V sr t = Some id). { unfold sr. simpl. rewrite Nat.eqb_refl, Tr, E, Nat.eqb_refl. reflexivity. }
  assert (Fr : map_find n (cells V sr) = Some (id, (T, v))) by exact E.
  cbn [call_step]. rewrite P, Pr. cbn [seen]. f_equal. f_equal.
  rewrite Fr in F. apply found_in in F. unfold value_at.
  destruct (find _ _) as [e|] eqn:G.
  - apply find_some in G. destruct G as [G1 G2]. apply Nat.eqb_eq in G2.
    destruct O as [_ O]. assert (e = (n, (id, (T, v)))) by (apply O; assumption). subst e. reflexivity.
  - exfalso. eapply find_none in G; [|exact F]. simpl in G. rewrite Nat.eqb_refl in G. discriminate.
Qed.
Print Assumptions C66_pointer_partial.
(** another thread removes the variable, or stores it again, between the retrieval and the read *)
Theorem C66_dangling_refuted : exists (l l' : list (nat * call nat)),
  In (1, UB) (seen nat (run_calls nat l no_calls)) /\ In (1, UB) (seen nat (run_calls nat l' no_calls))
  /\ (forall t, ~ In (1, UB) (seen nat (run_calls nat (filter (fun e => fst e =? t) l) no_calls)))
  /\ (forall t, ~ In (1, UB) (seen nat (run_calls nat (filter (fun e => fst e =? t) l') no_calls))).
Proof.
  exists [(1, CStore nat (lit "x") (0, 7)); (1, CRetrieve nat 0 (lit "x")); (2, CRemove nat (lit "x")); (1, CRead nat)],
         [(1, CStore nat (lit "x") (0, 7)); (1, CRetrieve nat 0 (lit "x")); (2, CStore nat (lit "x") (0, 8)); (1, CRead nat)].
  split; [left; reflexivity|]. split; [left; reflexivity|].
  split; intros [|[|[|t]]]; simpl; intuition congruence.
Qed.
Print Assumptions C66_dangling_refuted.
(** two threads and two variables *)
Example C66_case :
  seen nat (run_calls nat [(1, CStore nat (lit "x") (0, 7)); (2, CStore nat (lit "y") (0, 5)); (1, CRetrieve nat 0 (lit "x"));
    (2, CRemove nat (lit "y")); (2, CRetrieve nat 0 (lit "x")); (1, CRead nat); (2, CRead nat)] no_calls) = [(2, Ok 7); (1, Ok 7)].
Proof. reflexivity. Qed.
