(** PropHelp.v - C180 and C181: the list of commands, and the places where a pipeline puts its variables *)
From Coq Require Import Ascii String DecimalString Sorting.Sorted Sorting.Permutation.
From Verif Require Import Base CliModel CliProofs PipeProofs PropPipe HelpModel.
Open Scope nat_scope.
Open Scope list_scope.

(** ** C180  The list of commands *)
(** the byte order of std::string: at the first difference the smaller character comes first, and a beginning before the whole *)
Definition before (a b : str) : Prop :=
  exists p a' b', a = p ++ a' /\ b = p ++ b'
    /\ match a', b' with [], _ :: _ => True | x :: _, y :: _ => nat_of_ascii x < nat_of_ascii y | _, [] => False end.
Definition registration_of (S : Type) := (str * str * talking S)%type.
Definition reg_name {S} (e : registration_of S) : str := fst (fst e).
(** commands registered one after the other *)
Definition enrol {S} (l : list (registration_of S)) (r : described S) : described S :=
  fold_left (fun r e => describe S (reg_name e) (snd (fst e)) (snd e) r) l r.
(** the first registration of a name *)
Definition first_as {S} (n t : str) (h : talking S) (l : list (registration_of S)) : Prop :=
  exists l1 l2, l = l1 ++ (n, t, h) :: l2 /\ ~ In n (map reg_name l1).

Lemma lts_before a : forall b, lts a b = true -> before a b.
Proof.
  induction a as [|x a IH]; intros [|y b]; simpl; try discriminate.
  - intros _. exists [], [], (y :: b). repeat split.
  - rewrite Bool.orb_true_iff, Bool.andb_true_iff, Nat.ltb_lt, Ascii.eqb_eq. intros [H|[-> H]].
    + exists [], (x :: a), (y :: b). repeat split. exact H.
    + destruct (IH b H) as (p & a' & b' & -> & -> & Q). exists (y :: p), a', b'. repeat split. exact Q.
Qed.
Lemma enrol_sorted {S} (l : list (registration_of S)) : forall r, sorted_map r -> sorted_map (enrol l r).
Proof. induction l as [|e l IH]; intros r H; [exact H|]. simpl. apply IH, emplace_sorted, H. Qed.
Lemma enrol_find {S} (l : list (registration_of S)) : forall (r : described S) n,
  map_find n (enrol l r) = match map_find n r with Some x => Some x | None => option_map (fun e => (snd (fst e), snd e)) (find (fun e => eqs n (reg_name e)) l) end.
Proof.
  induction l as [|[[k t] h] l IH]; intros r n; simpl; [destruct (map_find n r); reflexivity|].
  rewrite IH. unfold describe. rewrite find_emplace. destruct (map_find n r); [reflexivity|]. cbn [reg_name fst snd find]. unfold reg_name at 1. cbn [fst].
  destruct (eqs n k); reflexivity.
Qed.
Lemma first_find {S} n t (h : talking S) l : first_as n t h l <-> option_map (fun e => (snd (fst e), snd e)) (find (fun e => eqs n (reg_name e)) l) = Some (t, h).
Proof.
  split.
  - intros (l1 & l2 & -> & N). induction l1 as [|[[k t'] h'] l1 IH]; simpl; [unfold reg_name; cbn; rewrite eqs_refl; reflexivity|].
    simpl in N. unfold reg_name at 1. cbn [fst]. unfold reg_name at 1 in N. cbn [fst] in N. destruct (eqs_spec n k) as [->|]; [exfalso; apply N; auto|]. apply IH. intros I. apply N. auto.
  - induction l as [|[[k t'] h'] l IH]; simpl; [discriminate|]. unfold reg_name at 1. cbn [fst]. destruct (eqs_spec n k) as [->|N].
    + intros E. injection E as -> ->. exists [], l. split; [reflexivity|]. intros [].
    + intros E. destruct (IH E) as (l1 & l2 & -> & Q). exists ((k, t', h') :: l1), l2. split; [reflexivity|]. simpl. intros [I|I]; [apply N; symmetry; exact I|auto].
Qed.
Lemma enrol_first {S} (l : list (registration_of S)) n t h : In (n, (t, h)) (enrol l []) <-> first_as n t h l.
Proof. rewrite find_in by (apply enrol_sorted; constructor). rewrite enrol_find, first_find. reflexivity. Qed.

(** the line of a command *)
Definition help_line (n t : str) : str := lit "  " ++ n ++ repeat " "%char (15 - length n) ++ lit " : " ++ t ++ nl.

(** After any registrations help prints, between a heading and the tips, one line for every command and no other: in byte order of the names, with
    the description that was registered first, and with every name once *)
Theorem C180_listing {S} (l : list (registration_of S)) : exists rows : list (str * str),
  list_commands S (enrol l []) = lit "Available Commands:" ++ nl ++ concat (map (fun e => help_line (fst e) (snd e)) rows) ++ tips
  /\ StronglySorted before (map fst rows) /\ NoDup (map fst rows)
  /\ forall n t, In (n, t) rows <-> exists h, first_as n t h l.
Proof.
  set (r := enrol l []). assert (Srt : sorted_map r) by (apply enrol_sorted; constructor).
  exists (map (fun e => (fst e, fst (snd e))) r). rewrite !map_map. cbn [fst snd]. split; [|split; [|split]].
  - unfold list_commands. do 3 f_equal. rewrite flat_map_concat_map. apply f_equal, map_ext. intros [n [t h]]. cbn. unfold command_line, column, help_line. rewrite <- !app_assoc. reflexivity.
  - clearbody r. induction Srt as [|e r Srt IH F]; simpl; constructor; [exact IH|]. apply Forall_map. eapply Forall_impl; [|exact F]. intros b. apply lts_before.
  - clearbody r. induction Srt as [|e r Srt IH F]; simpl; constructor; [|exact IH]. intros I. apply in_map_iff in I as (x & E & I).
    eapply Forall_forall in F; [|exact I]. rewrite E, lts_irrefl in F. discriminate.
  - intros n t. rewrite in_map_iff. split.
    + intros ([k [t' h]] & E & I). cbn in E. injection E as -> ->. exists h. apply enrol_first, I.
    + intros (h & Q). exists (n, (t, h)). split; [reflexivity|]. apply enrol_first, Q.
Qed.
Print Assumptions C180_listing.

(** names without blanks and texts of one line: the list tells the commands and their descriptions *)
Definition one_word (n : str) : Prop := Forall (fun c => c <> " "%char) n.
Definition one_line (t : str) : Prop := Forall (fun c => c <> ascii_of_nat 10) t.
Lemma split_at c (a a' r r' : str) : Forall (fun x => x <> c) a -> Forall (fun x => x <> c) a' -> a ++ c :: r = a' ++ c :: r' -> a = a' /\ r = r'.
Proof.
  intros H. revert a'. induction H as [|x a Hx H IH]; intros [|y a'] H' E; simpl in E.
  - injection E as ->. auto.
  - inversion H'; subst. injection E as -> _. congruence.
  - injection E as -> _. congruence.
  - inversion H'; subst. injection E as -> E. destruct (IH a' ltac:(assumption) E) as [-> ->]. auto.
Qed.
Lemma rows_inj (R R' : list (str * str)) : Forall (fun e => one_word (fst e) /\ one_line (snd e)) R -> Forall (fun e => one_word (fst e) /\ one_line (snd e)) R' ->
  concat (map (fun e => help_line (fst e) (snd e)) R) ++ tips = concat (map (fun e => help_line (fst e) (snd e)) R') ++ tips -> R = R'.
Proof.
  intros H. revert R'. induction H as [|[n t] R [W L] H IH]; intros [|[n' t'] R'] H' E; cbn [map concat fst snd] in *.
  - reflexivity.
  - exfalso. discriminate E.
  - exfalso. discriminate E.
  - inversion H' as [|? ? [W' L'] H'']; subst. cbn [fst snd] in W', L'. rewrite <- !app_assoc in E. specialize (IH R' H'').
    set (X := concat (map (fun e => help_line (fst e) (snd e)) R) ++ tips) in *. set (X' := concat (map (fun e => help_line (fst e) (snd e)) R') ++ tips) in *. clearbody X X'.
    unfold help_line in E. rewrite <- !app_assoc in E. apply app_inv_head in E.
    assert (Q : n = n').
    { assert (B : forall (m r : str), exists r0, m ++ repeat " "%char (15 - length m) ++ lit " : " ++ r = m ++ " "%char :: r0).
      { intros m r. destruct (15 - length m); cbn; eexists; reflexivity. }
      destruct (B n (t ++ nl ++ X)) as (r0 & E0).
      destruct (B n' (t' ++ nl ++ X')) as (r1 & E1).
      rewrite E0, E1 in E. eapply split_at in E; [apply E|exact W|exact W']. }
    subst n'. do 3 apply app_inv_head in E. unfold nl in E. cbn [app] in E. apply split_at in E as [-> E]; [|exact L|exact L']. f_equal. apply IH; assumption.
Qed.
Theorem C180_decides {S} (l l' : list (registration_of S)) :
  Forall (fun e => one_word (reg_name e) /\ one_line (snd (fst e))) (l ++ l') ->
  list_commands S (enrol l []) = list_commands S (enrol l' []) ->
  forall n t, (exists h, first_as n t h l) <-> (exists h, first_as n t h l').
Proof.
  intros G E n t. destruct (C180_listing l) as (R & ER & _ & _ & IR). destruct (C180_listing l') as (R' & ER' & _ & _ & IR').
  rewrite ER, ER' in E. do 2 apply app_inv_head in E.
  assert (P : forall k, (k = l \/ k = l') -> forall Q, (forall n t, In (n, t) Q <-> exists h, first_as n t h k) -> Forall (fun e : str * str => one_word (fst e) /\ one_line (snd e)) Q).
  { intros k Hk Q IQ. apply Forall_forall. intros [m u] I. apply IQ in I as (h & l1 & l2 & -> & _).
    rewrite Forall_forall in G. apply (G (m, u, h)). apply in_or_app. destruct Hk as [<-|<-]; [left|right]; apply in_or_app; right; left; reflexivity. }
  apply rows_inj in E; [|eapply P; [|exact IR]; auto|eapply P; [|exact IR']; auto]. subst R'. rewrite <- IR, <- IR'. reflexivity.
Qed.
Print Assumptions C180_decides.
(** a name with a blank at its end looks like the name without it *)
Theorem C180_blank_refuted {S} (h : talking S) : exists l l', list_commands S (enrol l []) = list_commands S (enrol l' []) /\
  exists n t, first_as n t h l /\ ~ exists h', first_as n t h' l'.
Proof.
  exists [(lit "a", lit "x", h)], [(lit "a ", lit "x", h)]. split; [reflexivity|]. exists (lit "a"), (lit "x").
  split; [exists [], []; split; [reflexivity|intros []]|]. intros (h' & [|e l1] & l2 & E & _); [discriminate E|]. destruct l1; discriminate E.
Qed.
Print Assumptions C180_blank_refuted.

(** The order of the registrations shows only where a name is registered twice: so the order in which the libraries of a directory are found does not
    matter when their commands have different names *)
Lemma sorted_unique {A} (m m' : list (str * A)) : sorted_map m -> sorted_map m' -> (forall n, map_find n m = map_find n m') -> m = m'.
Proof.
  intros Sm. revert m'. induction Sm as [|[k v] m Sm IH F]; intros [|[k' v'] m'] Sm' E.
  - reflexivity.
  - exfalso. specialize (E k'). simpl in E. rewrite eqs_refl in E. discriminate.
  - exfalso. specialize (E k). simpl in E. rewrite eqs_refl in E. discriminate.
  - inversion Sm' as [|? ? Sm'' F']; subst.
    assert (K : k = k').
    { destruct (eqs_spec k k') as [|N]; [assumption|exfalso].
      assert (E1 := E k). assert (E2 := E k'). cbn [map_find] in E1, E2. rewrite eqs_refl in E1, E2.
      apply eqs_neq in N. rewrite N in E1. rewrite eqs_sym in N. rewrite N in E2. apply find_in in E2; [|exact Sm]. symmetry in E1. apply find_in in E1; [|exact Sm''].
      eapply Forall_forall in F; [|exact E2]. eapply Forall_forall in F'; [|exact E1]. cbn in F, F'.
      assert (X := lts_trans _ _ _ F F'). rewrite lts_irrefl in X. discriminate. }
    subst k'. assert (V : v = v') by (specialize (E k); simpl in E; rewrite eqs_refl in E; congruence). subst v'. f_equal.
    apply IH; [exact Sm''|]. intros q. assert (Eq := E q). cbn [map_find] in Eq. destruct (eqs_spec q k) as [Q|]; [|exact Eq]. rewrite Q. rewrite (find_above k m), (find_above k m'); auto.
Qed.
Theorem C180_order {S} (l l' : list (registration_of S)) : Permutation l l' -> NoDup (map reg_name l) ->
  list_commands S (enrol l []) = list_commands S (enrol l' []) /\ forall n args st, execute_text S (enrol l []) n args st = execute_text S (enrol l' []) n args st.
Proof.
  intros P N. assert (E : enrol l [] = enrol l' []).
  { apply sorted_unique; try (apply enrol_sorted; constructor). intros n. rewrite !enrol_find. cbn [map_find].
    assert (N' : NoDup (map reg_name l')) by (eapply Permutation_NoDup; [apply Permutation_map; exact P|exact N]).
    assert (U : forall k : list (registration_of S), NoDup (map reg_name k) -> forall e, find (fun e => eqs n (reg_name e)) k = Some e <-> In e k /\ reg_name e = n).
    { intros k Nk e. split.
      - intros H. apply find_some in H as [I H]. apply eqs_eq in H. auto.
      - intros [I <-]. induction k as [|a k IH]; [contradiction|]. simpl in *. inversion Nk; subst. destruct I as [->|I]; [rewrite eqs_refl; reflexivity|].
        destruct (eqs_spec (reg_name e) (reg_name a)) as [X|]; [|auto]. exfalso. rewrite <- X in *. match goal with H : ~ In _ _ |- _ => apply H end. apply in_map, I. }
    f_equal. destruct (find (fun e => eqs n (reg_name e)) l) as [e|] eqn:Fl.
    - apply U in Fl as [I <-]; [|exact N]. symmetry. apply U; [exact N'|]. split; [eapply Permutation_in; eauto|reflexivity].
    - destruct (find (fun e => eqs n (reg_name e)) l') as [e|] eqn:Fl'; [|reflexivity]. apply U in Fl' as [I <-]; [|exact N'].
      assert (X : find (fun e0 => eqs (reg_name e) (reg_name e0)) l = Some e).
      { apply U; [exact N|]. split; [eapply Permutation_in; [apply Permutation_sym; exact P|exact I]|reflexivity]. }
      congruence. }
  rewrite E. auto.
Qed.
Print Assumptions C180_order.
(** the names of the program and of the three plugins are different, so this holds for them, with any handlers, in any order *)
Definition with_handlers {S} (h : str -> talking S) (l : list (str * str * schema)) : list (registration_of S) := map (fun e => (fst (fst e), snd (fst e), h (fst (fst e)))) l.
Fixpoint distinct (l : list str) : bool := match l with [] => true | a :: l => negb (existsb (eqs a) l) && distinct l end.
Lemma distinct_NoDup l : distinct l = true -> NoDup l.
Proof.
  induction l as [|a l IH]; simpl; intros H; constructor; apply Bool.andb_true_iff in H as [H1 H2]; [|auto].
  intros I. assert (X : existsb (eqs a) l = true) by (apply existsb_exists; exists a; split; [exact I|apply eqs_refl]). rewrite X in H1. discriminate.
Qed.
Theorem C180_plugins {S} (h : str -> talking S) libs l' : Permutation libs [plugin_math; plugin_math_add; plugin_replace] ->
  l' = with_handlers h (program ++ concat libs) ->
  list_commands S (enrol l' []) = list_commands S (enrol (with_handlers h (program ++ plugin_math ++ plugin_math_add ++ plugin_replace)) [])
  /\ forall n t sc, In (n, t, sc) (program ++ concat libs) -> first_as n t (h n) l' /\ forall args st, fst (execute_text S (enrol l' []) n args st)
     = let '(text, _, e) := h n args st in text ++ match e with Some what => lit "Error executing command '" ++ n ++ lit "': " ++ what ++ nl | None => [] end.
Proof.
  intros P ->. set (all := program ++ plugin_math ++ plugin_math_add ++ plugin_replace).
  assert (Pa : Permutation (program ++ concat libs) all).
  { unfold all. apply Permutation_app_head. assert (Q : concat [plugin_math; plugin_math_add; plugin_replace] = plugin_math ++ plugin_math_add ++ plugin_replace) by reflexivity.
    rewrite <- Q. clear - P. induction P; simpl; [constructor|apply Permutation_app_head; assumption| |etransitivity; eassumption].
    rewrite !app_assoc. apply Permutation_app_tail, Permutation_app_comm. }
  assert (Na : NoDup (map (fun e => fst (fst e)) all)) by (apply distinct_NoDup; vm_compute; reflexivity).
  assert (N : NoDup (map reg_name (with_handlers h (program ++ concat libs)))).
  { unfold with_handlers. rewrite map_map. eapply Permutation_NoDup; [apply Permutation_sym, Permutation_map; exact Pa|exact Na]. }
  split.
  - apply C180_order; [|exact N]. apply Permutation_map, Pa.
  - intros n t sc I. assert (Fi : first_as n t (h n) (with_handlers h (program ++ concat libs))).
    { apply in_split in I as (l1 & l2 & E). rewrite E in *. unfold with_handlers in *. rewrite map_app in *. cbn [map fst snd] in *.
      exists (map (fun e => (fst (fst e), snd (fst e), h (fst (fst e)))) l1), (map (fun e => (fst (fst e), snd (fst e), h (fst (fst e)))) l2). split; [reflexivity|].
      rewrite map_app in N. cbn [map] in N. apply NoDup_remove_2 in N. unfold reg_name at 1 3 in N. cbn [fst] in N. intros J. apply N, in_or_app. left. exact J. }
    split; [exact Fi|]. intros args st. apply enrol_first in Fi. apply find_in in Fi; [|apply enrol_sorted; constructor].
    unfold execute_text. rewrite Fi. destruct (h n args st) as [[text st'] [what|]]; cbn [fst]; [reflexivity|rewrite app_nil_r; reflexivity].
Qed.
Print Assumptions C180_plugins.

(** A command is run with its arguments; an exception is reported with the name of the command, and what was done before it stays; a name that is not
    registered is reported with the list of commands and changes nothing; help changes nothing *)
Theorem C180_execute {S} (l : list (registration_of S)) n args st :
  (forall t h text st' e, first_as n t h l -> h args st = (text, st', e) ->
     execute_text S (enrol l []) n args st = (text ++ match e with Some what => lit "Error executing command '" ++ n ++ lit "': " ++ what ++ nl | None => [] end, st'))
  /\ (~ In n (map reg_name l) -> execute_text S (enrol l []) n args st = (lit "Unknown command: " ++ n ++ nl ++ list_commands S (enrol l []), st))
  /\ (forall t r, first_as n t (help S r) l -> execute_text S (enrol l []) n args st = (list_commands S r, st)).
Proof.
  assert (Fd : forall t h, first_as n t h l -> map_find n (enrol l []) = Some (t, h)).
  { intros t h Fi. apply find_in; [apply enrol_sorted; constructor|]. apply enrol_first, Fi. }
  split; [|split].
  - intros t h text st' e Fi E. unfold execute_text. rewrite (Fd _ _ Fi), E. destruct e; [reflexivity|rewrite app_nil_r; reflexivity].
  - intros N. unfold execute_text. destruct (map_find n (enrol l [])) as [[t h]|] eqn:E; [|reflexivity]. exfalso. apply N.
    apply find_in in E; [|apply enrol_sorted; constructor]. apply enrol_first in E as (l1 & l2 & -> & _). rewrite map_app. apply in_or_app. right. left. reflexivity.
  - intros t r Fi. unfold execute_text. rewrite (Fd _ _ Fi). reflexivity.
Qed.
Print Assumptions C180_execute.
(** the descriptions stand below each other for names of at most 15 characters *)
Theorem C180_columns n t : length n <= 15 -> exists p, help_line n t = p ++ t ++ nl /\ length p = 20.
Proof.
  intros H. exists (lit "  " ++ n ++ repeat " "%char (15 - length n) ++ lit " : "). split; [unfold help_line; rewrite <- !app_assoc; reflexivity|].
  rewrite !app_length, repeat_length. change (length (lit "  ")) with 2. change (length (lit " : ")) with 3. lia.
Qed.
Print Assumptions C180_columns.
(** and the program has commands with longer names *)
Theorem C180_columns_refuted : exists e e', In e program /\ In e' program /\
  forall p p', help_line (fst (fst e)) (snd (fst e)) = p ++ snd (fst e) ++ nl -> help_line (fst (fst e')) (snd (fst e')) = p' ++ snd (fst e') ++ nl -> length p <> length p'.
Proof.
  exists (lit "copy", lit "Copy a memory variable in the workspace to a new variable.", IndependentSchema),
    (lit "get_sift_potential_keypoint", lit "Extract SIFT potential keypoints from an image.", TransformerSchema).
  split; [|split].
  - unfold program. repeat (first [left; reflexivity|right]).
  - unfold program. repeat (first [left; reflexivity|right]).
  - intros p p' E E' L. apply (f_equal (@length _)) in E, E'. rewrite !app_length in E, E'. cbn [fst snd] in E, E'.
    match type of E with length (help_line ?n ?t) = _ => assert (A : length (help_line n t) = 20 + (length t + length nl)) by (vm_compute; reflexivity) end.
    match type of E' with length (help_line ?n ?t) = _ => assert (A' : length (help_line n t) = 32 + (length t + length nl)) by (vm_compute; reflexivity) end.
    rewrite A in E. rewrite A' in E'. lia.
Qed.
Print Assumptions C180_columns_refuted.
Example C180_case : let h : talking nat := fun args st => ([], length args + st, None) in
  let l := [(lit "write", lit "Write.", h); (lit "copy", lit "Copy.", h); (lit "write", lit "Again.", h)] in
  list_commands nat (enrol l []) = lit "Available Commands:" ++ nl ++ lit "  copy            : Copy." ++ nl ++ lit "  write           : Write." ++ nl ++ tips
  /\ first_as (lit "write") (lit "Write.") h l /\ ~ first_as (lit "write") (lit "Again.") h l
  /\ execute_text nat (enrol l []) (lit "copy") [lit "a"] 4 = ([], 5).
Proof.
  split; [reflexivity|]. split; [exists [], [(lit "copy", lit "Copy.", fun args st => ([], length args + st, None)); (lit "write", lit "Again.", fun args st => ([], length args + st, None))]; split; [reflexivity|intros []]|].
  split; [|reflexivity]. rewrite first_find. discriminate.
Qed.

(** ** C181  Where a pipeline puts its variables *)
(** the stage after stage i: the variable it hands over; the last segment may be the name of a variable *)
Definition goes_to (segs : list (list str)) (i : nat) (v : str) : Prop :=
  S i < length segs
  /\ ((exists w, S (S i) = length segs /\ nth_error segs (S i) = Some ["$"%char :: w] /\ v = "$"%char :: w)
      \/ (~ (S (S i) = length segs /\ exists w, nth_error segs (S i) = Some ["$"%char :: w]) /\ v = lit "$__pipe_" ++ decimal i)).
Definition comes_from (i : nat) (v : str) : Prop := exists j, i = S j /\ v = lit "$__pipe_" ++ decimal j.
(** the handlers of the program and of the plugins with their schemas *)
Definition commands : list (str * str * schema) := program ++ plugin_math ++ plugin_math_add ++ plugin_replace.
Definition knows {V F} (reg : registry V F) : Prop := forall n t sc, In (n, t, sc) commands -> get_schema V F reg n = Some sc.
Definition no_policy (l : list str) : Prop := Forall (fun a => is_policy a = false) l.

Definition inject (sc : schema) (prev next : str) (args : list str) : list str :=
  let args := if negb (in_idx sc =? -1)%Z && match prev with [] => false | _ => true end then insert_arg args (in_idx sc) prev else args in
  if negb (out_idx sc =? -1)%Z && match next with [] => false | _ => true end then insert_arg args (out_idx sc) next else args.
Lemma build_nth V F (reg : registry V F) segs : forall i prev final acc L, build V F reg segs i prev final acc = Run L ->
  length L = length acc + length segs /\ (forall k, k < length acc -> nth_error L k = nth_error acc k) /\
  forall j seg, nth_error segs j = Some seg -> exists name args sc, seg = name :: args /\ get_schema V F reg name = Some sc
   /\ nth_error L (length acc + j) = Some (name, inject sc (match j with O => prev | S j => pipe_var (i + j) end) (if S j =? length segs then final else pipe_var (i + j)) args).
Proof.
  induction segs as [|seg segs IH]; intros i prev final acc L E; simpl in E.
  - injection E as ->. split; [simpl; lia|]. split; [reflexivity|]. intros [|j] seg; discriminate.
  - destruct seg as [|name args]; [discriminate|]. destruct (_ || _); [discriminate|]. destruct (get_schema V F reg name) as [sc|] eqn:Sc; [|discriminate].
    apply IH in E as (E1 & E2 & E3). rewrite app_length in E1. simpl in E1. split; [simpl; lia|]. split.
    + intros k Hk. rewrite E2 by (rewrite app_length; simpl; lia). apply nth_error_app1, Hk.
    + intros [|j] seg N; simpl in N.
      * injection N as <-. exists name, args, sc. split; [reflexivity|]. split; [exact Sc|]. rewrite Nat.add_0_r. rewrite E2 by (rewrite app_length; simpl; lia).
        rewrite nth_error_app2, Nat.sub_diag by lia. cbn [nth_error]. unfold inject. rewrite Nat.add_0_r. destruct segs; reflexivity.
      * destruct (E3 j seg N) as (n & a & sc' & -> & Sc' & Q). exists n, a, sc'. split; [reflexivity|]. split; [exact Sc'|].
        rewrite app_length in Q. simpl in Q. rewrite <- Nat.add_assoc in Q. simpl in Q. rewrite Q. cbn [length]. change (S (S j) =? S (length segs)) with (S j =? length segs).
        replace (i + S j) with (S i + j) by lia. destruct j as [|j].
        -- rewrite !Nat.add_0_r. destruct segs as [|s segs]; [discriminate|]. reflexivity.
        -- rewrite ?Nat.add_succ_r, ?Nat.add_succ_l. reflexivity.
Qed.
Lemma dollar_cons v : dollar v = true -> exists w, v = "$"%char :: w.
Proof.
  destruct v as [|c v]; [discriminate|]. intros D. change (Ascii.eqb "$"%char c && true = true) in D. apply Bool.andb_true_iff in D as [D _].
  apply Ascii.eqb_eq in D as <-. exists v. reflexivity.
Qed.
Lemma split_final_cases (segs : list (list str)) : (exists (s : list (list str)) (w : str), segs = s ++ [["$"%char :: w]] /\ s <> [] /\ split_final segs = (s, "$"%char :: w))
  \/ (split_final segs = (segs, []) /\ ~ exists (s : list (list str)) (w : str), segs = s ++ [["$"%char :: w]] /\ s <> []).
Proof.
  unfold split_final. destruct (rev segs) as [|last [|y l]] eqn:E; rewrite ?E.
  - right. split; [reflexivity|]. intros (s & w & -> & _). rewrite rev_app_distr in E. discriminate.
  - right. split; [destruct last as [|? [|]]; reflexivity|]. intros (s & w & -> & N). rewrite rev_app_distr in E. cbn in E. injection E as _ E. apply N. apply (f_equal (@rev _)) in E. rewrite rev_involutive in E. exact E.
  - assert (Es : segs = rev (y :: l) ++ [last]) by (rewrite <- (rev_involutive segs), E; reflexivity).
    assert (Ny : rev (y :: l) <> []) by (cbn; destruct (rev l); discriminate).
    destruct last as [|v [|b r]].
    + right. split; [reflexivity|]. intros (s & w & X & _). rewrite X, rev_app_distr in E. discriminate.
    + destruct (dollar v) eqn:D.
      * apply dollar_cons in D as (w & ->). left. exists (rev (y :: l)), w. auto.
      * right. split; [reflexivity|]. intros (s & w & X & _). rewrite X, rev_app_distr in E. cbn in E. injection E as <- _. discriminate D.
    + right. split; [reflexivity|]. intros (s & w & X & _). rewrite X, rev_app_distr in E. discriminate.
Qed.
Definition written (segs : list (list str)) : Prop := Forall (fun seg => seg <> [] /\ Forall plain seg) segs.
Lemma line_nth V F (reg : registry V F) segs L i name args : written segs -> parse_line V F reg (write_line segs) = Run L ->
  nth_error segs i = Some (name :: args) ->
  forall out, (goes_to segs i out \/ (S i = length segs /\ out = [] /\ ~ exists w, (name :: args = ["$"%char :: w] /\ i <> 0))) ->
  exists sc, get_schema V F reg name = Some sc /\ nth_error L i = Some (name, inject sc (match i with O => [] | S j => pipe_var j end) out args).
Proof.
  intros W E N out G. unfold parse_line in E. rewrite (C63_words _ W) in E.
  assert (Fi : filter (fun t : list str => match t with [] => false | _ => true end) segs = segs).
  { clear - W. induction W as [|s l [H _] _ IH]; [reflexivity|]. simpl. destruct s; [congruence|]. rewrite IH. reflexivity. }
  rewrite Fi in E. destruct segs as [|s0 segs0] eqn:Es; [destruct i; discriminate|]. rewrite <- Es in *. clear Es s0 segs0.
  assert (Li : i < length segs) by (apply nth_error_Some; congruence).
  destruct (split_final_cases segs) as [(s & w & Es & Ns & Sp)|(Sp & No)]; rewrite Sp in E; apply build_nth in E as (_ & _ & E); cbn [length Nat.add] in E.
  - assert (Ls : length segs = S (length s)) by (rewrite Es, app_length; simpl; lia).
    assert (Is : i < length s).
    { destruct G as [[G _]|(G & _ & X)]; [lia|]. exfalso. rewrite Es, nth_error_app2 in N by lia. replace (i - length s) with 0 in N by lia. cbn in N. injection N as <- <-. apply X. exists w. split; [reflexivity|]. destruct s; [congruence|]. simpl in Ls. lia. }
    rewrite Es, nth_error_app1 in N by exact Is. destruct (E i _ N) as (n & a & sc & Q & Sc & R). injection Q as <- <-. exists sc. split; [exact Sc|]. rewrite R. do 2 f_equal. f_equal.
    destruct G as [[_ [(w' & G1 & G2 & ->)|(G1 & ->)]]|(G & _)]; [| |lia].
    + replace (S i) with (length s) in * by lia. rewrite Nat.eqb_refl. rewrite Es, nth_error_app2, Nat.sub_diag in G2 by lia. cbn in G2. injection G2 as ->. reflexivity.
    + destruct (Nat.eqb_spec (S i) (length s)) as [X|]; [|reflexivity]. exfalso. apply G1. split; [lia|]. exists w. rewrite Es, X, nth_error_app2, Nat.sub_diag by lia. reflexivity.
  - destruct (E i _ N) as (n & a & sc & Q & Sc & R). injection Q as <- <-. exists sc. split; [exact Sc|]. rewrite R. do 2 f_equal. f_equal.
    destruct G as [[H [(w' & G1 & G2 & ->)|(G1 & ->)]]|(G & -> & _)].
    + exfalso. apply nth_error_split in G2 as (l1 & l2 & Es & Ll). assert (Q := f_equal (@length _) Es). rewrite app_length in Q. cbn [length] in Q.
      destruct l2; [|cbn [length] in Q; unfold str in *; lia]. apply No. exists l1, w'. split; [exact Es|]. destruct l1; discriminate.
    + destruct (Nat.eqb_spec (S i) (length segs)); [lia|reflexivity].
    + rewrite G, Nat.eqb_refl. reflexivity.
Qed.
Lemma pipe_not_policy a : dollar a = true -> is_policy a = false.
Proof.
  intros D. apply dollar_cons in D as (w & ->). reflexivity.
Qed.
Lemma goes_dollar segs i v : goes_to segs i v -> dollar v = true.
Proof. intros [_ [(w & _ & _ & ->)|(_ & ->)]]; reflexivity. Qed.
Lemma insert_at args (k : nat) v : k <= length args -> insert_arg args (Z.of_nat k) v = firstn k args ++ v :: skipn k args.
Proof. intros H. unfold insert_arg. rewrite Z.min_l, Nat2Z.id by lia. reflexivity. Qed.
(** the arguments that are counted, when the first k words are *)
Lemma seen_insert u args k v : k <= length args -> (filters u = true -> no_policy (firstn k args)) -> is_policy v = false ->
  seen u (firstn k args ++ v :: skipn k args) = firstn k (seen u args) ++ v :: skipn k (seen u args).
Proof.
  intros H P D. unfold seen. destruct (filters u); [|reflexivity]. specialize (P eq_refl). unfold args_filter. rewrite filter_app. cbn [filter]. rewrite D. cbn [negb].
  revert args H P. induction k as [|k IH]; intros args H P; [reflexivity|]. destruct args as [|a args]; [simpl in H; lia|].
  cbn [firstn skipn filter] in *. inversion P as [|? ? Pa P']; subst. rewrite Pa. cbn [negb app firstn skipn]. f_equal. apply IH; [simpl in H; lia|exact P'].
Qed.

Definition agree_in (e : str * str * schema) (x : str * usage) : bool :=
  negb (eqs (fst (fst e)) (fst x)) || ((in_idx (snd e) =? -1)%Z && (out_idx (snd e) =? -1)%Z)
  || match reads (snd x), writes (snd x) with
     | Some 0, Some w => (in_idx (snd e) =? 0)%Z && (out_idx (snd e) =? Z.of_nat w)%Z && (1 <=? w)
     | Some 0, None => (in_idx (snd e) =? 0)%Z && (out_idx (snd e) =? -1)%Z
     | None, Some _ => (in_idx (snd e) =? -1)%Z && (out_idx (snd e) =? 1)%Z
     | _, _ => false
     end.
Lemma tables_agree : forallb (fun e => forallb (agree_in e) usages) commands = true.
Proof. vm_compute. reflexivity. Qed.
Lemma tables n t sc u : In (n, t, sc) commands -> In (n, u) usages -> sc <> IndependentSchema ->
  match reads u, writes u with
  | Some 0, Some w => sc = mkSchema 0 (Z.of_nat w) /\ 1 <= w
  | Some 0, None => sc = mkSchema 0 (-1)
  | None, Some _ => sc = mkSchema (-1) 1
  | _, _ => False
  end.
Proof.
  intros I J N. assert (A := tables_agree). rewrite forallb_forall in A. specialize (A _ I). rewrite forallb_forall in A. specialize (A _ J).
  unfold agree_in in A. cbn [fst snd] in A. rewrite eqs_refl in A. cbn [negb orb] in A. destruct sc as [a b]. cbn [in_idx out_idx] in *.
  assert (Q : (a =? -1)%Z && (b =? -1)%Z = false).
  { destruct (Z.eqb_spec a (-1)), (Z.eqb_spec b (-1)); try reflexivity. subst. exfalso. apply N. reflexivity. }
  rewrite Q in A. cbn [orb] in A. destruct (reads u) as [[|r]|], (writes u) as [w|]; try discriminate A; repeat rewrite Bool.andb_true_iff in A; rewrite ?Z.eqb_eq, ?Nat.leb_le in A.
  - destruct A as [[-> ->] H]. auto.
  - destruct A as [-> ->]. reflexivity.
  - destruct A as [-> ->]. reflexivity.
Qed.

(** A stage in the middle of a pipeline, for every command of the program and of the plugins that takes part in pipelines: its handler finds the variable
    of the stage before where it looks for its input, the variable of the stage after where it looks for its output, and the user's arguments around them
    in their order; a policy word does not matter if it comes after the words in front of the output *)
Theorem C181_middle : forall (V F : Type) (reg : registry V F) segs L i name text sc u w args inp out,
  knows reg -> written segs -> parse_line V F reg (write_line segs) = Run L -> nth_error segs i = Some (name :: args) ->
  In (name, text, sc) commands -> sc <> IndependentSchema -> In (name, u) usages -> reads u = Some 0 -> writes u = Some w ->
  comes_from i inp -> goes_to segs i out ->
  w - 1 <= length args -> (filters u = true -> no_policy (firstn (w - 1) args)) ->
  exists c, nth_error L i = Some (name, c)
    /\ seen u c = inp :: firstn (w - 1) (seen u args) ++ out :: skipn (w - 1) (seen u args)
    /\ nth_error (seen u c) 0 = Some inp /\ nth_error (seen u c) w = Some out.
Proof.
  intros V F reg segs L i name text sc u w args inp out K W E N I Ns J Ru Wu (j & -> & ->) G Hw P.
  assert (T := tables _ _ _ _ I J Ns). rewrite Ru, Wu in T. destruct T as [-> Hw1].
  destruct (line_nth _ _ _ _ _ _ _ _ W E N out (or_introl G)) as (sc & Sc & Q). rewrite (K _ _ _ I) in Sc. injection Sc as <-.
  eexists. split; [exact Q|]. set (inp := lit "$__pipe_" ++ decimal j).
  assert (Ic : inject (mkSchema 0 (Z.of_nat w)) (pipe_var j) out args = inp :: firstn (w - 1) args ++ out :: skipn (w - 1) args).
  { unfold inject. cbn [in_idx out_idx]. change (pipe_var j) with inp. destruct (Z.eqb_spec (Z.of_nat w) (-1)); [lia|].
    assert (D := goes_dollar _ _ _ G). destruct out as [|o out]; [discriminate D|]. cbn [negb andb]. change (0 =? -1)%Z with false. cbn [negb andb].
    assert (X : match inp with [] => false | _ => true end = true) by reflexivity. rewrite X.
    change 0%Z with (Z.of_nat 0). rewrite (insert_at args 0) by lia. cbn [firstn skipn app].
    rewrite insert_at by (simpl; lia). destruct w as [|w]; [lia|]. cbn [firstn skipn app]. rewrite Nat.sub_succ, Nat.sub_0_r. reflexivity. }
  assert (Se : seen u (inject (mkSchema 0 (Z.of_nat w)) (pipe_var j) out args) = inp :: firstn (w - 1) (seen u args) ++ out :: skipn (w - 1) (seen u args)).
  { rewrite Ic. assert (Z := seen_insert u args (w - 1) out Hw P (pipe_not_policy _ (goes_dollar _ _ _ G))).
    rewrite <- Z. unfold seen, args_filter. destruct (filters u); reflexivity. }
  rewrite Se. split; [reflexivity|]. split; [reflexivity|].
  assert (Lf : length (firstn (w - 1) (seen u args)) = w - 1).
  { rewrite firstn_length. apply Nat.min_l. unfold seen. destruct (filters u); [|lia]. specialize (P eq_refl). clear - Hw P.
    revert args Hw P. generalize (w - 1). intros k. induction k as [|k IH]; intros args H P; [lia|]. destruct args as [|a args]; [simpl in H; lia|].
    cbn [firstn] in P. inversion P as [|? ? Pa P']; subst. unfold args_filter in *. cbn [filter]. rewrite Pa. cbn [negb length] in *. apply le_n_S, IH; [lia|exact P']. }
  destruct w as [|w]; [lia|]. cbn [nth_error]. rewrite nth_error_app2; rewrite Lf, Nat.sub_succ, Nat.sub_0_r in *; [|lia]. rewrite Nat.sub_diag. reflexivity.
Qed.
Print Assumptions C181_middle.
(** The first stage: the variable of the next stage stands where the handler looks for its output, after the user's words in front of it *)
Theorem C181_first : forall (V F : Type) (reg : registry V F) segs L name text sc u w args out,
  knows reg -> written segs -> parse_line V F reg (write_line segs) = Run L -> nth_error segs 0 = Some (name :: args) ->
  In (name, text, sc) commands -> sc <> IndependentSchema -> In (name, u) usages -> writes u = Some w -> 1 <= w ->
  goes_to segs 0 out -> w <= length args -> (filters u = true -> no_policy (firstn w args)) ->
  (reads u = None -> w = 1) ->
  exists c, nth_error L 0 = Some (name, c) /\ seen u c = firstn w (seen u args) ++ out :: skipn w (seen u args).
Proof.
  intros V F reg segs L name text sc u w args out K W E N I Ns J Wu Hw1 G Hw P R1.
  assert (T := tables _ _ _ _ I J Ns). rewrite Wu in T.
  assert (O : sc = mkSchema 0 (Z.of_nat w) \/ sc = mkSchema (-1) (Z.of_nat w)).
  { destruct (reads u) as [[|]|]; [left; apply T|contradiction|right]. rewrite (R1 eq_refl). exact T. }
  destruct (line_nth _ _ _ _ _ _ _ _ W E N out (or_introl G)) as (sc' & Sc & Q). rewrite (K _ _ _ I) in Sc. injection Sc as <-.
  eexists. split; [exact Q|]. assert (D := goes_dollar _ _ _ G).
  assert (Ic : inject sc [] out args = firstn w args ++ out :: skipn w args).
  { unfold inject. rewrite Bool.andb_false_r. destruct out as [|o out]; [discriminate D|].
    destruct O as [-> | ->]; cbn [out_idx]; destruct (Z.eqb_spec (Z.of_nat w) (-1)); try lia; cbn [negb andb]; apply insert_at, Hw. }
  rewrite Ic. apply seen_insert; [exact Hw|exact P|apply pipe_not_policy, D].
Qed.
Print Assumptions C181_first.
(** The last stage without a variable for the result: info, print and write find the variable of the stage before at their first place *)
Theorem C181_last : forall (V F : Type) (reg : registry V F) segs L i name text sc u args inp,
  knows reg -> written segs -> parse_line V F reg (write_line segs) = Run L -> nth_error segs i = Some (name :: args) -> S i = length segs ->
  In (name, text, sc) commands -> sc <> IndependentSchema -> In (name, u) usages -> reads u = Some 0 -> comes_from i inp ->
  exists c, nth_error L i = Some (name, c) /\ c = inp :: args.
Proof.
  intros V F reg segs L i name text sc u args inp K W E N Li I Ns J Ru (j & -> & ->).
  assert (Nd : dollar name = false).
  { assert (A : forallb (fun e : str * str * schema => negb (dollar (fst (fst e)))) commands = true) by (vm_compute; reflexivity).
    rewrite forallb_forall in A. specialize (A _ I). change (negb (dollar name) = true) in A. destruct (dollar name); [discriminate|reflexivity]. }
  assert (X : ~ exists w, name :: args = ["$"%char :: w] /\ S j <> 0).
  { intros (w & Y & _). injection Y as -> _. discriminate Nd. }
  destruct (line_nth _ _ _ _ _ _ _ _ W E N [] (or_intror (conj Li (conj eq_refl X)))) as (sc' & Sc & Q). rewrite (K _ _ _ I) in Sc. injection Sc as <-.
  eexists. split; [exact Q|]. assert (T := tables _ _ _ _ I J Ns). rewrite Ru in T.
  assert (O : in_idx sc = 0%Z) by (destruct (writes u); [destruct T as [-> _]|rewrite T]; reflexivity).
  unfold inject. rewrite Bool.andb_false_r, O. change (negb (0 =? -1)%Z && match pipe_var j with [] => false | _ => true end) with true. cbv iota.
  change 0%Z with (Z.of_nat 0). rewrite insert_at by lia. reflexivity.
Qed.
Print Assumptions C181_last.
(** zeros, ones, grid and gaussian_figure_2d look for their output at their first place, and the pipeline puts the variable at the second: a word of the user is
    taken for the output *)
Theorem C181_generators_refuted : exists name text sc u, In (name, text, sc) commands /\ sc <> IndependentSchema /\ In (name, u) usages /\ writes u = Some 0 /\
  forall (V F : Type) (reg : registry V F) segs L a args out,
  knows reg -> written segs -> parse_line V F reg (write_line segs) = Run L -> nth_error segs 0 = Some (name :: a :: args) -> goes_to segs 0 out ->
  exists c, nth_error L 0 = Some (name, c) /\ nth_error (seen u c) 0 = Some a /\ nth_error (seen u c) 1 = Some out.
Proof.
  exists (lit "zeros"), (lit "Generate an image filled with zeros."), GeneratorSchema, (mkUsage None (Some 0) false).
  split; [unfold commands, program; cbn [app]; repeat (first [left; reflexivity|right])|]. split; [discriminate|].
  split; [unfold usages; repeat (first [left; reflexivity|right])|]. split; [reflexivity|].
  intros V F reg segs L a args out K W E N G.
  destruct (line_nth _ _ _ _ _ _ _ _ W E N out (or_introl G)) as (sc' & Sc & Q).
  assert (Kz : get_schema V F reg (lit "zeros") = Some GeneratorSchema).
  { apply (K _ (lit "Generate an image filled with zeros.")). unfold commands, program; cbn [app]; repeat (first [left; reflexivity|right]). }
  assert (Sc2 := eq_trans (eq_sym Kz) Sc). injection Sc2 as <-. eexists. split; [exact Q|].
  assert (D := goes_dollar _ _ _ G). destruct out as [|o out]; [discriminate D|].
  assert (X : inject GeneratorSchema [] (o :: out) (a :: args) = a :: (o :: out) :: args).
  { unfold inject. cbn [GeneratorSchema in_idx out_idx]. change (negb (-1 =? -1)%Z) with false. change (negb (1 =? -1)%Z) with true. cbn [andb].
    change 1%Z with (Z.of_nat 1). rewrite insert_at by (simpl; lia). reflexivity. }
  rewrite X. split; reflexivity.
Qed.
Print Assumptions C181_generators_refuted.
(** all four do, and no other command writes to its first word *)
Theorem C181_four_generators : (forall name u, In (name, u) usages -> (writes u = Some 0 <-> In name (map lit ["zeros"; "ones"; "grid"; "gaussian_figure_2d"]%string)))
  /\ forall name, In name (map lit ["zeros"; "ones"; "grid"; "gaussian_figure_2d"]%string) -> (exists u, In (name, u) usages) /\ exists text, In (name, text, GeneratorSchema) commands.
Proof.
  split.
  - assert (A : forallb (fun x : str * usage => Bool.eqb (match writes (snd x) with Some 0 => true | _ => false end)
      (existsb (eqs (fst x)) (map lit ["zeros"; "ones"; "grid"; "gaussian_figure_2d"]%string))) usages = true) by (vm_compute; reflexivity).
    rewrite forallb_forall in A. intros name u I. specialize (A _ I). cbn [fst snd] in A. apply Bool.eqb_prop in A. split.
    + intros W. rewrite W in A. symmetry in A. apply existsb_exists in A as (x & Ix & Ex). apply eqs_eq in Ex. subst x. exact Ix.
    + intros Ix. assert (B : existsb (eqs name) (map lit ["zeros"; "ones"; "grid"; "gaussian_figure_2d"]%string) = true) by (apply existsb_exists; exists name; split; [exact Ix|apply eqs_eq; reflexivity]).
      rewrite B in A. destruct (writes u) as [[|k]|]; [reflexivity|discriminate|discriminate].
  - assert (A : forallb (fun n => existsb (fun x : str * usage => eqs (fst x) n) usages
      && existsb (fun e => eqs (fst (fst e)) n && (in_idx (snd e) =? -1)%Z && (out_idx (snd e) =? 1)%Z) commands) (map lit ["zeros"; "ones"; "grid"; "gaussian_figure_2d"]%string) = true) by (vm_compute; reflexivity).
    rewrite forallb_forall in A. intros name I. specialize (A _ I). apply Bool.andb_true_iff in A as [A B]. split.
    + apply existsb_exists in A as ([n u] & Iu & Q). cbn [fst] in Q. apply eqs_eq in Q. subst. exists u. exact Iu.
    + apply existsb_exists in B as ([[n t] [a b]] & In1 & Q). cbn [fst snd in_idx out_idx] in Q. rewrite !Bool.andb_true_iff, !Z.eqb_eq in Q. destruct Q as [[Q1 Q2] Q3]. apply eqs_eq in Q1. subst. exists t. exact In1.
Qed.
Print Assumptions C181_four_generators.
(** copy reads and writes variables, and takes no part in a pipeline: it gets the user's words alone *)
Theorem C181_independent_refuted : exists name u, In (name, u) usages /\ reads u = Some 0 /\ writes u = Some 1 /\
  forall (V F : Type) (reg : registry V F) segs L i args out, knows reg -> written segs -> parse_line V F reg (write_line segs) = Run L ->
  nth_error segs i = Some (name :: args) -> goes_to segs i out -> nth_error L i = Some (name, args).
Proof.
  exists (lit "copy"), (mkUsage (Some 0) (Some 1) false). split; [unfold usages; repeat (first [left; reflexivity|right])|]. do 2 (split; [reflexivity|]).
  intros V F reg segs L i args out K W E N G. destruct (line_nth _ _ _ _ _ _ _ _ W E N out (or_introl G)) as (sc' & Sc & Q).
  assert (Kz : get_schema V F reg (lit "copy") = Some IndependentSchema).
  { apply (K _ (lit "Copy a memory variable in the workspace to a new variable.")). unfold commands, program; cbn [app]; repeat (first [left; reflexivity|right]). }
  assert (Sc2 := eq_trans (eq_sym Kz) Sc). injection Sc2 as <-. exact Q.
Qed.
Print Assumptions C181_independent_refuted.

(** a registry with the program's commands and schemas, whatever the handlers do *)
Definition full_registry {V F} (h : str -> handler V F) : registry V F := fold_left (fun r e => register_command V F (fst (fst e)) (snd e) (h (fst (fst e))) r) commands [].
Lemma full_find {V F} (h : str -> handler V F) l : forall (r : registry V F) n, map_find n (fold_left (fun r e => register_command V F (fst (fst e)) (snd e) (h (fst (fst e))) r) l r)
  = match map_find n r with Some x => Some x | None => option_map (fun e : str * str * schema => (snd e, h (fst (fst e)))) (find (fun e => eqs n (fst (fst e))) l) end.
Proof.
  induction l as [|[[k t] sc] l IH]; intros r n; simpl; [destruct (map_find n r); reflexivity|].
  rewrite IH. unfold register_command. rewrite find_emplace. destruct (map_find n r); [reflexivity|]. cbn [fst snd]. destruct (eqs n k); reflexivity.
Qed.
Theorem C181_knows {V F} (h : str -> handler V F) : knows (full_registry h).
Proof.
  intros n t sc I. unfold get_schema, full_registry.
  assert (X : find (fun e : str * str * schema => eqs n (fst (fst e))) commands = Some (n, t, sc)).
  { assert (N : NoDup (map (fun e : str * str * schema => fst (fst e)) commands)) by (apply distinct_NoDup; vm_compute; reflexivity).
    revert N I. generalize commands. intros l. induction l as [|a l IH]; intros N I; [contradiction|]. cbn [map find] in *. inversion N as [|? ? Na N']; subst.
    destruct I as [->|I]; [cbn; rewrite eqs_refl; reflexivity|]. destruct (eqs_spec n (fst (fst a))) as [Y|]; [|auto]. exfalso. apply Na. rewrite <- Y.
    apply (in_map (fun e : str * str * schema => fst (fst e)) _ _ I). }
  assert (Y := full_find h commands [] n). cbn [map_find] in Y. rewrite X in Y. cbn [option_map fst snd] in Y. unfold registry in *. rewrite Y. reflexivity.
Qed.
Print Assumptions C181_knows.
(** with a policy word in front of its second operand, add takes the operand for the output *)
Theorem C181_policy_refuted : exists segs c, written segs /\ parse_line unit unit (full_registry (fun _ _ st => st)) (write_line segs) = Run c
  /\ nth_error segs 1 = Some [lit "add"; lit "par"; lit "$b"]
  /\ exists a, nth_error c 1 = Some (lit "add", a) /\ args_filter a = [lit "$__pipe_0"; lit "$x"; lit "$b"].
Proof.
  exists [[lit "dct2"; lit "$a"]; [lit "add"; lit "par"; lit "$b"]; [lit "$x"]]. eexists. split; [|split; [vm_compute; reflexivity|]].
  - repeat (apply Forall_cons || apply Forall_nil || (split; [discriminate|])); split; try discriminate; repeat (apply Forall_cons || apply Forall_nil); split; try discriminate; reflexivity.
  - split; [reflexivity|]. eexists. split; reflexivity.
Qed.
Print Assumptions C181_policy_refuted.
Example C181_case : parse_line unit unit (full_registry (fun _ _ st => st)) (lit "read in.bmp | getRplane par | add $b par | replace 1 2 | $x")
  = Run [(lit "read", [lit "in.bmp"; lit "$__pipe_0"]); (lit "getRplane", [lit "$__pipe_0"; lit "$__pipe_1"; lit "par"]);
         (lit "add", [lit "$__pipe_1"; lit "$b"; lit "$__pipe_2"; lit "par"]); (lit "replace", [lit "$__pipe_2"; lit "1"; lit "2"; lit "$x"])].
Proof. vm_compute. reflexivity. Qed.
