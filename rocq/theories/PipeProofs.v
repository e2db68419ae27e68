(** PipeProofs.v - the peephole optimiser keeps the meaning of pipelines. *)
From Coq Require Import Ascii String DecimalString DecimalNat DecimalFacts.
From Verif Require Import Base CliModel CliProofs.
Open Scope nat_scope.

(** ** the variables of the pipes *)
Definition pname (i : nat) : str := lit "__pipe_" ++ decimal i.
Definition pipe_name (n : str) : bool := starts_with (lit "__pipe_") n.
(** the variable an argument stands for *)
Definition var_of (a : str) : option str :=
  if dollar a then Some (sanitize (tl a))
  else if dollar (sanitize a) then Some (sanitize (tl (sanitize a)))
  else None.
Definition user_arg (a : str) : Prop := match var_of a with Some n => pipe_name n = false | None => True end.

Lemma starts_with_app p s : starts_with p (p ++ s) = true.
Proof. induction p; simpl; [reflexivity|]. rewrite Ascii.eqb_refl. exact IHp. Qed.
Lemma pname_pipe i : pipe_name (pname i) = true.
Proof. apply starts_with_app. Qed.
Lemma pipe_var_pname i : pipe_var i = "$"%char :: pname i.
Proof. reflexivity. Qed.
Lemma lit_inj a b : lit a = lit b -> a = b.
Proof. intros E. rewrite <- (string_of_list_ascii_of_string a), <- (string_of_list_ascii_of_string b). f_equal. exact E. Qed.
Lemma to_uint_nonnil n : Nat.to_uint n <> Decimal.Nil.
Proof. rewrite <- (DecimalNat.Unsigned.of_to n), DecimalNat.Unsigned.to_of. apply unorm_nonnil. Qed.
Lemma decimal_inj i j : decimal i = decimal j -> i = j.
Proof.
  intros E. apply lit_inj in E. apply (f_equal NilZero.uint_of_string) in E.
  rewrite !NilZero.usu in E by apply to_uint_nonnil. injection E as E.
  rewrite <- (DecimalNat.Unsigned.of_to i), <- (DecimalNat.Unsigned.of_to j). f_equal. exact E.
Qed.
Lemma pname_inj i j : pname i = pname j -> i = j.
Proof. intros E. apply decimal_inj. apply app_inv_head in E. exact E. Qed.
Lemma pipe_var_inj i j : pipe_var i = pipe_var j -> i = j.
Proof. rewrite !pipe_var_pname. intros E. apply pname_inj. congruence. Qed.

Lemma decimal_clean i : Forall (fun c => is_junk c = false) (decimal i).
Proof.
  unfold decimal, NilZero.string_of_uint.
  assert (G : forall d, Forall (fun c => is_junk c = false) (lit (NilEmpty.string_of_uint d))) by (induction d; simpl; constructor; auto).
  destruct (Nat.to_uint i); try apply G; repeat constructor.
Qed.
Lemma pname_sanitize i : sanitize (pname i) = pname i.
Proof.
  apply sanitize_clean. split.
  - intros c r E. unfold pname in E. simpl in E. injection E as <- _. reflexivity.
  - intros r c E. assert (F : Forall (fun c => is_junk c = false) (pname i)).
    { unfold pname. apply Forall_app. split; [simpl; repeat constructor|apply decimal_clean]. }
    eapply Forall_forall in F; [exact F|]. rewrite E. apply in_or_app. right. left. reflexivity.
Qed.
Lemma var_of_pipe i : var_of (pipe_var i) = Some (pname i).
Proof. rewrite pipe_var_pname. unfold var_of. simpl dollar. simpl tl. rewrite pname_sanitize. reflexivity. Qed.
Lemma user_not_pipe a i : user_arg a -> a <> pipe_var i.
Proof. intros U ->. unfold user_arg in U. rewrite var_of_pipe, pname_pipe in U. discriminate. Qed.
Lemma user_nil : user_arg [].
Proof. exact I. Qed.
Lemma dollar_pipe i : dollar (pipe_var i) = true.
Proof. reflexivity. Qed.
Lemma pipe_arg_pipe i : pipe_arg (pipe_var i) = true.
Proof. unfold pipe_arg, pipe_var. apply starts_with_app. Qed.
Lemma starts_with_split p : forall a, starts_with p a = true -> exists r, a = p ++ r.
Proof.
  induction p as [|x p IH]; intros a H; [exists a; reflexivity|]. destruct a as [|y a]; [discriminate|]. cbn [starts_with] in H.
  apply Bool.andb_true_iff in H. destruct H as [H1 H2]. apply Ascii.eqb_eq in H1. subst y. destruct (IH a H2) as (r & ->). exists r. reflexivity.
Qed.
Lemma dollar_cons c a : dollar (c :: a) = true -> c = "$"%char.
Proof. unfold dollar, lit. cbn [list_ascii_of_string starts_with]. rewrite Bool.andb_true_r. intros E. apply Ascii.eqb_eq in E. auto. Qed.
Lemma policy_not_dollar a : dollar a = true -> is_policy a = false.
Proof. destruct a as [|c a]; [reflexivity|]. intros E. apply dollar_cons in E. subst c. reflexivity. Qed.
Lemma dollar_nonempty a : dollar a = true -> a <> [].
Proof. intros H ->. discriminate. Qed.

Lemma starts_before p r : Forall (fun c => is_junk c = false) p -> forall t post, t ++ post = p ++ r -> Forall (fun c => is_junk c = true) post ->
  starts_with p t = true.
Proof.
  induction p as [|x p IH]; intros Fp t post E Fq; [reflexivity|]. inversion Fp as [|? ? Jx Fp']; subst. destruct t as [|y t].
  - cbn [app] in E. subst post. inversion Fq; subst. congruence.
  - cbn [app] in E. injection E as -> E. cbn [starts_with]. rewrite Ascii.eqb_refl. apply (IH Fp' t post); assumption.
Qed.
Lemma user_pipe_arg a : user_arg a -> pipe_arg a = false.
Proof.
  intros U. destruct (pipe_arg a) eqn:P; [|reflexivity]. exfalso. unfold pipe_arg in P. apply starts_with_split in P. destruct P as (r & ->).
  unfold user_arg, var_of in U. match type of U with context [dollar ?a] => change (dollar a) with true in U; change (tl a) with (lit "__pipe_" ++ r) in U end.
  cbv iota in U.
  destruct (sanitize_spec (lit "__pipe_" ++ r)) as (pre & post & E & Fa & Fb & _). destruct pre as [|c pre].
  - unfold pipe_name in U. rewrite (starts_before (lit "__pipe_") r) with (post := post) in U; [discriminate|repeat constructor|symmetry; exact E|exact Fb].
  - injection E as <- _. inversion Fa; subst. discriminate.
Qed.

(** ** logical positions *)
Lemma logical_arg_nth args : forall c idx, (0 <= c <= idx)%Z -> logical_arg args c idx = nth (Z.to_nat (idx - c)) (args_filter args) [].
Proof.
  unfold args_filter. induction args as [|a args IH]; intros c idx H; simpl; [destruct (Z.to_nat (idx - c)); reflexivity|].
  destruct (is_policy a); simpl; [apply IH, H|].
  destruct (Z.eqb_spec c idx) as [->|N]; [rewrite Z.sub_diag; reflexivity|].
  rewrite IH by lia. replace (Z.to_nat (idx - c)) with (S (Z.to_nat (idx - (c + 1)))) by lia. reflexivity.
Qed.
Lemma logical_arg_0 args idx : (0 <= idx)%Z -> logical_arg args 0 idx = nth (Z.to_nat idx) (args_filter args) [].
Proof. intros H. rewrite logical_arg_nth by lia. rewrite Z.sub_0_r. reflexivity. Qed.

Lemma update_arg_spec v args : is_policy v = false -> forall c idx, (0 <= c <= idx)%Z ->
  match update_arg args c idx v with
  | None => length (args_filter args) <= Z.to_nat (idx - c)
  | Some args' =>
      Z.to_nat (idx - c) < length (args_filter args)
      /\ args_filter args' = list_upd (Z.to_nat (idx - c)) v (args_filter args)
      /\ filter is_policy args' = filter is_policy args /\ length args' = length args
      /\ (last args' [] = last args [] \/ last args' [] = v)
      /\ (forall a, In a args' -> In a args \/ a = v)
  end.
Proof.
  intros Pv. unfold args_filter. induction args as [|a args IH]; intros c idx H; simpl; [lia|].
  destruct (is_policy a) eqn:Pa; simpl.
  - specialize (IH c idx H). destruct (update_arg args c idx v) as [args'|] eqn:E; simpl; [|exact IH].
    destruct IH as (A & B & C & D & L & I). rewrite Pa. simpl. repeat split; auto; try congruence.
    + destruct args as [|b args]; destruct args' as [|b' args']; try discriminate; exact L.
    + intros x [->|K]; [auto|]. destruct (I x K); auto.
  - destruct (Z.eqb_spec c idx) as [->|N].
    + rewrite Z.sub_diag. simpl. rewrite Pv. simpl. repeat split; auto; try lia.
      * destruct args; [right; reflexivity|left; reflexivity].
      * intros x [->|K]; auto.
    + specialize (IH (c + 1)%Z idx). replace (Z.to_nat (idx - c)) with (S (Z.to_nat (idx - (c + 1)))) by lia.
      destruct (update_arg args (c + 1) idx v) as [args'|] eqn:E; simpl; [|specialize (IH ltac:(lia)); lia].
      specialize (IH ltac:(lia)).
      destruct IH as (A & B & C & D & L & I). rewrite Pa. simpl. repeat split; auto; try lia; try congruence.
      * destruct args as [|b args]; destruct args' as [|b' args']; try discriminate; exact L.
      * intros x [->|K]; [auto|]. destruct (I x K); auto.
Qed.

Section Pipe.
  Variable V F : Type.
  Variable load_file : F -> str -> option (any V).
  Variable save_file : F -> str -> any V -> option F.
  Notation state := (state V F).
  Notation any := (any V).
  Implicit Types s t st : state.

  Definition var (s : state) (n : str) : option any := map_find n (vars V F s).
  (** two states agree on the variables [N] and on the files *)
  Definition agree (N : str -> Prop) (s s' : state) : Prop :=
    files V F s = files V F s' /\ forall n, N n -> var s n = var s' n.
  (** the variables a command may see: those of the user, and those its arguments name *)
  Definition visible (args : list str) (n : str) : Prop := pipe_name n = false \/ In (Some n) (map var_of args).

  (** A handler that looks at and changes no other variable of a pipe. *)
  Definition local_handler (h : handler V F) : Prop :=
    forall args s s', agree (visible args) s s' ->
      agree (visible args) (h args s) (h args s')
      /\ forall n, ~ visible args n -> var s n = None -> var (h args s) n = None.

  (** storing a result: in a variable, or in a file as [put] says *)
  Definition put_arg (put : F -> str -> any -> F) (st : state) (a : str) (v : any) : state :=
    if dollar a then mkState V F (ws_store V (tl a) v (vars V F st)) (files V F st)
    else mkState V F (vars V F st) (put (files V F st) a v).
  Definition blank (sc : schema) (f : list str) : list str :=
    list_upd (Z.to_nat (in_idx sc)) [] (list_upd (Z.to_nat (out_idx sc)) [] f).

  (** A handler that loads its input, computes from it and the other arguments, and stores the result in its output. *)
  Definition routed (sc : schema) (h : handler V F) (G : list str -> list str -> state -> any -> option any)
      (put : F -> str -> any -> F) : Prop :=
    (forall p args s s' v, agree (visible args) s s' -> G p args s v = G p args s' v)
    /\ forall args st,
        let f := args_filter args in
        let i := Z.to_nat (in_idx sc) in
        let o := Z.to_nat (out_idx sc) in
        h args st =
        if (i <? length f) && (o <? length f) then
          match load_arg V F load_file st (nth i f []) with
          | None => st
          | Some v =>
              match G (filter is_policy args) (blank sc f) st v with
              | None => st
              | Some w => put_arg put st (nth o f []) w
              end
          end
        else st.

  Lemma var_store st a v n : var (mkState V F (ws_store V a v (vars V F st)) (files V F st)) n = if eqs n (sanitize a) then Some v else var st n.
  Proof. unfold var, ws_store. simpl. apply find_set. Qed.

  Lemma load_agree (N : str -> Prop) s s' a : agree N s s' -> (forall n, var_of a = Some n -> N n) ->
    load_arg V F load_file s a = load_arg V F load_file s' a.
  Proof.
    intros [Ef Ev] H. unfold load_arg. unfold var_of in H. destruct (dollar a); [apply Ev, H; reflexivity|].
    cbv zeta. destruct (dollar (sanitize a)); [|rewrite Ef; reflexivity].
    specialize (Ev _ (H _ eq_refl)). unfold var in Ev. rewrite Ev. reflexivity.
  Qed.

  Lemma filter_visible args a : In a (args_filter args) -> forall n, var_of a = Some n -> visible args n.
  Proof. intros I n E. right. rewrite <- E. apply in_map. apply filter_In in I. apply I. Qed.
  Lemma list_upd_in {A} (x : A) : forall l k v, In x (list_upd k v l) -> In x l \/ x = v.
  Proof.
    induction l as [|a l IH]; intros [|k] v; simpl; auto; intros [->|H]; auto.
    destruct (IH _ _ H); auto.
  Qed.
  Lemma blank_in sc f a : In a (blank sc f) -> In a f \/ a = [].
  Proof. unfold blank. intros H. apply list_upd_in in H. destruct H as [H|H]; [|auto]. apply list_upd_in in H. exact H. Qed.
  Lemma blank_visible sc args n : visible (blank sc (args_filter args)) n -> visible args n.
  Proof.
    intros [H|H]; [left; exact H|]. apply in_map_iff in H. destruct H as (a & E & I). apply blank_in in I. destruct I as [I| ->].
    - apply (filter_visible args a I n E).
    - discriminate.
  Qed.
  Lemma agree_mono (N M : str -> Prop) s s' : (forall n, M n -> N n) -> agree N s s' -> agree M s s'.
  Proof. intros H [A B]. split; auto. Qed.
  Lemma put_agree (N : str -> Prop) put s s' a v : agree N s s' -> agree N (put_arg put s a v) (put_arg put s' a v).
  Proof.
    intros [Ef Ev]. unfold put_arg. destruct (dollar a).
    - split; [exact Ef|]. intros n H. rewrite !var_store. destruct (eqs n (sanitize (tl a))); [reflexivity|apply Ev, H].
    - split; [simpl; rewrite Ef; reflexivity|exact Ev].
  Qed.
  Lemma put_other put s a v n : var_of a <> Some n -> var (put_arg put s a v) n = var s n.
  Proof.
    unfold var_of, put_arg. destruct (dollar a); [|reflexivity]. intros H. rewrite var_store.
    destruct (eqs_spec n (sanitize (tl a))) as [->|]; [|reflexivity]. exfalso. apply H. reflexivity.
  Qed.

  Lemma routed_local sc h G put : routed sc h G put -> local_handler h.
  Proof.
    intros [X H] args s s' A. rewrite !H. cbv zeta. set (f := args_filter args). set (i := Z.to_nat (in_idx sc)). set (o := Z.to_nat (out_idx sc)).
    destruct ((i <? length f) && (o <? length f)) eqn:B; [|split; auto].
    apply Bool.andb_true_iff in B. destruct B as [Bi Bo]. apply Nat.ltb_lt in Bi, Bo.
    rewrite (load_agree _ _ _ (nth i f []) A (filter_visible args _ (nth_In f [] Bi))).
    destruct (load_arg V F load_file s' (nth i f [])) as [v|]; [|split; auto].
    rewrite (X _ (blank sc f) s s' v) by (eapply agree_mono; [apply blank_visible|exact A]).
    destruct (G (filter is_policy args) (blank sc f) s' v) as [w|]; [|split; auto]. split; [apply put_agree, A|].
    intros n N E. rewrite put_other; [exact E|]. intros Q. apply N. exact (filter_visible args _ (nth_In f [] Bo) n Q).
  Qed.

  (** *** the meta handlers are routed *)
  Definition put_file (f : F) (a : str) (v : any) : F := match save_file f (sanitize a) v with Some f' => f' | None => f end.
  Lemma save_put st a v : save_arg V F save_file st a v = put_arg put_file st a v.
  Proof. unfold save_arg, put_arg, put_file. destruct (dollar a); [reflexivity|]. destruct (save_file _ _ _); destruct st; reflexivity. Qed.
  Definition first_word (p : list str) : str := hd [] p.
  Lemma extract_hd args : extract_policy args = first_word (filter is_policy args).
  Proof. induction args as [|a args IH]; simpl; [reflexivity|]. destruct (is_policy a); [reflexivity|exact IH]. Qed.
  Lemma transform_routed extra setup :
    routed TransformerSchema (transform_handler V F load_file save_file extra setup)
      (fun p args _ v => if length args <? 2 + extra then None else match setup (first_word p) (skipn 2 args) with Some core => core v | None => None end)
      put_file.
  Proof.
    split; [reflexivity|]. intros args st. cbv zeta. unfold transform_handler, blank. rewrite extract_hd.
    change (Z.to_nat (in_idx TransformerSchema)) with 0. change (Z.to_nat (out_idx TransformerSchema)) with 1.
    destruct (args_filter args) as [|i [|o rest]]; [reflexivity|reflexivity|].
    change ((0 <? length (i :: o :: rest)) && (1 <? length (i :: o :: rest))) with true. cbn [length nth list_upd skipn].
    replace (S (S (length rest)) <? 2 + extra) with (length rest <? extra) by (destruct (length rest <? extra) eqn:E; destruct (S (S (length rest)) <? 2 + extra) eqn:E'; lia).
    destruct (length rest <? extra); [destruct (load_arg _ _ _ _ _); reflexivity|].
    destruct (setup (first_word (filter is_policy args)) rest) as [core|]; [|destruct (load_arg _ _ _ _ _); reflexivity].
    destruct (load_arg _ _ _ _ _) as [v|]; [|reflexivity]. destruct (core v); [|reflexivity]. apply save_put.
  Qed.
  Lemma scalar_routed extra setup :
    routed TransformerSchema (scalar_handler V F load_file extra setup)
      (fun p args _ v => if length args <? 1 + extra then None else match setup (last p []) (skipn 2 args) with Some core => core v | None => None end)
      (fun f _ _ => f).
  Proof.
    split; [reflexivity|]. intros args st. cbv zeta. unfold scalar_handler, blank. rewrite scalar_args_spec.
    change (Z.to_nat (in_idx TransformerSchema)) with 0. change (Z.to_nat (out_idx TransformerSchema)) with 1.
    destruct (args_filter args) as [|i [|o rest]]; [reflexivity| |].
    - change ((0 <? length [i]) && (1 <? length [i])) with false. cbn [length tl].
      destruct (0 <? extra); [reflexivity|]. destruct (setup _ []) as [core|]; [|reflexivity].
      destruct (load_arg _ _ _ _ _) as [v|]; [|reflexivity]. destruct (core v); reflexivity.
    - change ((0 <? length (i :: o :: rest)) && (1 <? length (i :: o :: rest))) with true. cbn [length nth list_upd skipn tl].
      replace (S (S (length rest)) <? 1 + extra) with (S (length rest) <? extra) by (destruct (S (length rest) <? extra) eqn:E; destruct (S (S (length rest)) <? 1 + extra) eqn:E'; lia).
      destruct (S (length rest) <? extra); [destruct (load_arg _ _ _ _ _); reflexivity|].
      destruct (setup _ rest) as [core|]; [|destruct (load_arg _ _ _ _ _); reflexivity].
      destruct (load_arg _ _ _ _ _) as [v|]; [|reflexivity]. destruct (core v) as [w|]; [|reflexivity].
      unfold put_arg. destruct (dollar o); [reflexivity|]. destruct st; reflexivity.
  Qed.

  (** *** a registry whose commands do what the optimiser takes for granted *)
  Variable reg : registry V F.
  Variable is_one : str -> bool.
  (** what a command computes: its policy words, its other arguments (input and output blanked), the state, its input *)
  Variable G : str -> list str -> list str -> state -> any -> option any.
  (** what a command does with an output that is not a variable *)
  Variable put : str -> F -> str -> any -> F.
  Notation command := (str * list str)%type.
  Notation get_io := (get_io V F reg).
  Notation exec c st := (execute V F reg (fst c) (snd c) st).
  Notation run := (run_pipeline V F reg).

  Definition both (sc : schema) : bool := negb (in_idx sc =? -1)%Z && negb (out_idx sc =? -1)%Z.
  Definition regular (name : str) (sc : schema) (h : handler V F) : Prop :=
    if eqs name (lit "copy") then h = copy_handler V F
    else if both sc then (0 <= in_idx sc)%Z /\ (0 <= out_idx sc)%Z /\ in_idx sc <> out_idx sc /\ routed sc h (G name) (put name)
    else local_handler h.

  Record well_behaved : Prop := {
    wb_regular : forall name sc h, map_find name reg = Some (sc, h) -> regular name sc h;
    wb_copy : exists h, map_find (lit "copy") reg = Some (IndependentSchema, h);
    wb_multiply : forall sc h, map_find (lit "multiply") reg = Some (sc, h) -> sc = TransformerSchema;
    (** the text of a number starts neither with a dollar nor like a policy *)
    wb_one : forall a, is_one a = true -> dollar a = false;
    (** multiplying by one gives what was there *)
    wb_neutral : forall p args s v, is_one (nth 2 args []) = true -> G (lit "multiply") p args s v = Some v;
    (** idct2 undoes dct2, and dct2 undoes idct2 *)
    wb_dct : forall p a s v p' a' s', exists w, G (lit "dct2") p a s v = Some w /\ G (lit "idct2") p' a' s' w = Some v;
    wb_idct : forall p a s v p' a' s', exists w, G (lit "idct2") p a s v = Some w /\ G (lit "dct2") p' a' s' w = Some v }.
  Hypothesis WB : well_behaved.

  (** what is asked of the arguments of the commands that the optimiser knows *)
  Definition nice (c : command) : Prop :=
    (is_copy c = true -> dollar (nth 0 (snd c) []) = true /\ dollar (nth 1 (snd c) []) = true)
    /\ (fst c = lit "dct2" \/ fst c = lit "idct2" -> fst (get_io c) <> [] -> dollar (fst (get_io c)) = true /\ dollar (snd (get_io c)) = true)
    /\ (fst c = lit "multiply" -> 3 <= length (snd c) -> is_one (last (snd c) []) = true ->
        dollar (fst (get_io c)) = true /\ dollar (snd (get_io c)) = true /\ is_one (nth 2 (args_filter (snd c)) []) = true).

  Definition others (c : command) : list str :=
    if is_copy c then []
    else match get_schema V F reg (fst c) with Some sc => blank sc (args_filter (snd c)) | None => [] end.
  Definition Gc (c : command) : state -> any -> option any :=
    if is_copy c then fun _ v => Some v else G (fst c) (filter is_policy (snd c)) (others c).

  Lemma is_copy_name c : is_copy c = true -> fst c = lit "copy" /\ exists a b r, snd c = a :: b :: r.
  Proof.
    unfold is_copy. rewrite Bool.andb_true_iff, eqs_eq, Nat.leb_le. intros [E L]. split; [exact E|].
    destruct (snd c) as [|a [|b r]]; simpl in L; try lia. eauto.
  Qed.
  Lemma args_filter_le args : length (args_filter args) <= length args.
  Proof. unfold args_filter. induction args as [|a args IH]; simpl; [lia|]. destruct (negb (is_policy a)); simpl; lia. Qed.
  Lemma get_io_some c : fst (get_io c) <> [] ->
    is_copy c = true /\ get_io c = (nth 0 (snd c) [], nth 1 (snd c) [])
    \/ is_copy c = false /\ fst c <> lit "copy" /\ exists sc h,
         let i := Z.to_nat (in_idx sc) in let o := Z.to_nat (out_idx sc) in
         map_find (fst c) reg = Some (sc, h) /\ both sc = true
         /\ (0 <= in_idx sc)%Z /\ (0 <= out_idx sc)%Z
         /\ get_io c = (nth i (args_filter (snd c)) [], nth o (args_filter (snd c)) [])
         /\ i < length (args_filter (snd c)) /\ o < length (args_filter (snd c)) /\ i <> o
         /\ nth o (args_filter (snd c)) [] <> [] /\ routed sc h (G (fst c)) (put (fst c)).
  Proof.
    unfold CliModel.get_io. destruct (is_copy c) eqn:C; [auto|]. unfold get_schema.
    destruct (map_find (fst c) reg) as [[sc h]|] eqn:E; [|simpl; congruence]. cbn [option_map fst].
    change (negb (in_idx sc =? -1)%Z && negb (out_idx sc =? -1)%Z) with (both sc). destruct (both sc) eqn:B; [|simpl; congruence].
    intros H. right. split; [reflexivity|].
    assert (N : fst c <> lit "copy").
    { intros Q. destruct (wb_copy WB) as (h' & E'). rewrite <- Q, E in E'. injection E' as -> _. discriminate B. }
    split; [exact N|]. exists sc, h.
    pose proof (wb_regular WB _ _ _ E) as Rg. unfold regular in Rg.
    destruct (eqs_spec (fst c) (lit "copy")) as [|_]; [contradiction|]. rewrite B in Rg. destruct Rg as (Pi & Po & D & Rt).
    cbv zeta. rewrite !logical_arg_0 in H |- * by assumption.
    set (f := args_filter (snd c)) in *.
    destruct (nth (Z.to_nat (in_idx sc)) f []) as [|x xs] eqn:I; [simpl in H; congruence|].
    destruct (nth (Z.to_nat (out_idx sc)) f []) as [|y ys] eqn:O; [simpl in H; congruence|].
    assert (Li : Z.to_nat (in_idx sc) < length f).
    { destruct (Nat.lt_ge_cases (Z.to_nat (in_idx sc)) (length f)) as [|L]; [assumption|]. rewrite nth_overflow in I by exact L. discriminate. }
    assert (Lo : Z.to_nat (out_idx sc) < length f).
    { destruct (Nat.lt_ge_cases (Z.to_nat (out_idx sc)) (length f)) as [|L]; [assumption|]. rewrite nth_overflow in O by exact L. discriminate. }
    do 6 (split; [auto|]). split; [lia|]. split; [lia|]. split; [discriminate|exact Rt].
  Qed.
  Lemma get_io_out c : fst (get_io c) <> [] -> nice c -> snd (get_io c) <> [].
  Proof.
    intros H N. destruct (get_io_some c H) as [(C & E)|(_ & _ & sc & h & _ & _ & _ & _ & E & _ & _ & _ & O & _)]; rewrite E; simpl.
    - apply dollar_nonempty. apply N, C.
    - exact O.
  Qed.

  (** a command with an input and an output loads, computes and stores *)
  Lemma exec_io c st : nice c -> fst (get_io c) <> [] ->
    exec c st =
    match load_arg V F load_file st (fst (get_io c)) with
    | None => st
    | Some v => match Gc c st v with None => st | Some w => put_arg (put (fst c)) st (snd (get_io c)) w end
    end.
  Proof.
    intros N H. unfold Gc, others, execute, get_schema.
    destruct (get_io_some c H) as [(C & E)|(C & _ & sc & h & M & _ & _ & _ & E & Li & Lo & _ & _ & Rt)]; rewrite C, E; cbn [fst snd].
    - destruct (is_copy_name c C) as (Q & a & b & r & Es). rewrite Q. destruct (wb_copy WB) as (h & M). rewrite M.
      pose proof (wb_regular WB _ _ _ M) as Rg. unfold regular in Rg. rewrite eqs_refl in Rg. subst h.
      destruct N as [N _]. specialize (N C). rewrite Es in N |- *. simpl in N. destruct N as [Na Nb]. simpl nth.
      unfold copy_handler, load_arg, put_arg, ws_retrieve_any. rewrite Na, Nb. simpl negb. simpl orb. cbv iota. reflexivity.
    - rewrite M. cbn [option_map fst]. destruct Rt as [_ Rt]. rewrite Rt. cbv zeta.
      apply Nat.ltb_lt in Li, Lo. rewrite Li, Lo. reflexivity.
  Qed.
  (** any other command is local *)
  Lemma exec_local c : fst (get_io c) = [] -> nice c -> local_handler (fun args st => execute V F reg (fst c) args st) \/ forall st, exec c st = st.
  Proof.
    intros H N. destruct (is_copy c) eqn:C.
    - exfalso. unfold CliModel.get_io in H. rewrite C in H. simpl in H. destruct N as [N _]. destruct (N C) as [K _]. rewrite H in K. discriminate.
    - unfold execute. destruct (map_find (fst c) reg) as [[sc h]|] eqn:M; [|right; reflexivity].
      pose proof (wb_regular WB _ _ _ M) as Rg. unfold regular in Rg.
      destruct (eqs_spec (fst c) (lit "copy")) as [E|_].
      + right. subst h. intros st. unfold copy_handler. unfold is_copy in C. rewrite E, eqs_refl in C. simpl in C.
        destruct (snd c) as [|? [|? ?]]; try reflexivity. discriminate.
      + left. destruct (both sc); [|exact Rg]. destruct Rg as (_ & _ & _ & Rt). exact (routed_local _ _ _ _ Rt).
  Qed.

  (** *** replacing an input or an output *)
  Lemma nth_upd {A} (d v : A) : forall l k j, nth j (list_upd k v l) d = if (j =? k) && (k <? length l) then v else nth j l d.
  Proof.
    induction l as [|a l IH]; intros [|k] [|j]; simpl; try reflexivity.
    - rewrite Bool.andb_false_r. reflexivity.
    - rewrite IH. reflexivity.
  Qed.
  Lemma upd_upd {A} (v w : A) : forall l k, list_upd k v (list_upd k w l) = list_upd k v l.
  Proof. induction l as [|a l IH]; intros [|k]; simpl; try reflexivity. rewrite IH. reflexivity. Qed.
  Lemma upd_comm {A} (v w : A) : forall l k j, k <> j -> list_upd k v (list_upd j w l) = list_upd j w (list_upd k v l).
  Proof. induction l as [|a l IH]; intros [|k] [|j] H; simpl; try reflexivity; try lia. rewrite IH by lia. reflexivity. Qed.
  Lemma blank_upd_in sc v f : Z.to_nat (in_idx sc) <> Z.to_nat (out_idx sc) -> blank sc (list_upd (Z.to_nat (in_idx sc)) v f) = blank sc f.
  Proof. intros D. unfold blank. rewrite (upd_comm [] v) by auto. apply upd_upd. Qed.
  Lemma blank_upd_out sc v f : blank sc (list_upd (Z.to_nat (out_idx sc)) v f) = blank sc f.
  Proof. unfold blank. rewrite upd_upd. reflexivity. Qed.

  Definition same_but (c c' : command) (i o : str) : Prop :=
    fst c' = fst c /\ get_io c' = (i, o) /\ is_copy c' = is_copy c /\ others c' = others c /\ nice c' /\ (forall st, Gc c' st = Gc c st).

  Lemma nice_last (c c' : command) (v : str) : nice c -> fst c' = fst c -> length (snd c') = length (snd c) -> dollar v = true ->
    (last (snd c') [] = last (snd c) [] \/ last (snd c') [] = v) ->
    is_copy c = false -> is_copy c' = false ->
    (fst c = lit "multiply" -> nth 2 (args_filter (snd c')) [] = nth 2 (args_filter (snd c)) []) ->
    fst (get_io c) <> [] -> snd (get_io c) <> [] ->
    fst (get_io c') = fst (get_io c) /\ snd (get_io c') = v \/ fst (get_io c') = v /\ snd (get_io c') = snd (get_io c) ->
    nice c'.
  Proof.
    intros (N1 & N2 & N3) E L D La C C' F2 Hi Ho IO. split; [congruence|]. rewrite E, L. split.
    - intros Nm _. destruct (N2 Nm Hi) as [A B]. destruct IO as [[-> ->]|[-> ->]]; auto.
    - intros Nm L3 O. destruct La as [La|La].
      + rewrite La in O. destruct (N3 Nm L3 O) as (A & B & Q). rewrite F2 by exact Nm.
        destruct IO as [[-> ->]|[-> ->]]; auto.
      + rewrite La in O. apply (wb_one WB) in O. congruence.
  Qed.
  Lemma update_in_ok c v c' : nice c -> fst (get_io c) <> [] -> dollar v = true ->
    update_in V F reg c v = Some c' -> same_but c c' v (snd (get_io c)).
  Proof.
    intros N H D U. pose proof (get_io_out c H N) as Ho. unfold update_in in U.
    destruct (get_io_some c H) as [(C & E)|(C & Nc & sc & h & M & B & Pi & Po & E & Li & Lo & Ne & _ & Rt)]; rewrite C in U.
    - injection U as <-. destruct (is_copy_name c C) as (Q & a & b & r & Es). destruct c as [nm args]. simpl in Q, Es. subst nm args.
      rewrite E. cbn [fst snd list_upd nth].
      split; [reflexivity|]. split; [reflexivity|]. split; [reflexivity|]. split; [reflexivity|]. split; [|reflexivity].
      destruct N as [N _]. destruct (N C) as [_ K]. split; [intros _; split; [exact D|exact K]|].
      split; [intros [Q|Q]; discriminate Q|intros Q; discriminate Q].
    - unfold get_schema in U. rewrite M in U. cbn [option_map fst] in U. unfold both in B. apply Bool.andb_true_iff in B. destruct B as [B1 B2]. rewrite B1 in U.
      pose proof (update_arg_spec v (snd c) (policy_not_dollar v D) 0 (in_idx sc) ltac:(lia)) as S. rewrite Z.sub_0_r in S.
      destruct (update_arg (snd c) 0 (in_idx sc) v) as [args'|] eqn:Ua; [|discriminate]. simpl in U. injection U as <-.
      destruct S as (_ & Sf & Sp & Sl & Sla & _).
      assert (C' : is_copy (fst c, args') = false) by (unfold is_copy in C |- *; simpl; rewrite Sl; exact C).
      assert (E' : get_io (fst c, args') = (v, snd (get_io c))).
      { rewrite E. unfold CliModel.get_io. rewrite C'. unfold get_schema. cbn [fst snd]. rewrite M. cbn [option_map fst]. rewrite B1, B2. simpl andb. cbv iota.
        rewrite !logical_arg_0 by assumption. rewrite Sf, !nth_upd, Nat.eqb_refl.
        apply Nat.ltb_lt in Li. rewrite Li. simpl andb. cbv iota.
        replace (Z.to_nat (out_idx sc) =? Z.to_nat (in_idx sc)) with false by (symmetry; apply Nat.eqb_neq; auto). simpl andb. cbv iota.
        rewrite E in Ho. simpl in Ho. pose proof (dollar_nonempty v D).
        destruct v; [congruence|]. destruct (nth (Z.to_nat (out_idx sc)) (args_filter (snd c)) []); [congruence|reflexivity]. }
      assert (Ot : others (fst c, args') = others c).
      { unfold others. rewrite C', C. unfold get_schema. cbn [fst snd]. rewrite M. cbn [option_map fst]. rewrite Sf. apply blank_upd_in, Ne. }
      split; [reflexivity|]. split; [exact E'|]. split; [congruence|]. split; [exact Ot|]. split.
      + apply (nice_last c (fst c, args') v); auto.
        * intros Nm. cbn [snd]. rewrite Sf, nth_upd. rewrite Nm in M. rewrite (wb_multiply WB _ _ M). reflexivity.
        * right. rewrite E'. auto.
      + unfold Gc. rewrite C', C. cbn [fst snd]. rewrite Sp, Ot. reflexivity.
  Qed.
  Lemma update_out_ok c v c' : nice c -> fst (get_io c) <> [] -> dollar v = true ->
    update_out V F reg c v = Some c' -> same_but c c' (fst (get_io c)) v.
  Proof.
    intros N H D U. pose proof (get_io_out c H N) as Ho. unfold update_out in U.
    destruct (get_io_some c H) as [(C & E)|(C & Nc & sc & h & M & B & Pi & Po & E & Li & Lo & Ne & _ & Rt)]; rewrite C in U.
    - injection U as <-. destruct (is_copy_name c C) as (Q & a & b & r & Es). destruct c as [nm args]. simpl in Q, Es. subst nm args.
      rewrite E. cbn [fst snd list_upd nth].
      split; [reflexivity|]. split; [reflexivity|]. split; [reflexivity|]. split; [reflexivity|]. split; [|reflexivity].
      destruct N as [N _]. destruct (N C) as [K _]. split; [intros _; split; [exact K|exact D]|].
      split; [intros [Q|Q]; discriminate Q|intros Q; discriminate Q].
    - unfold get_schema in U. rewrite M in U. cbn [option_map fst] in U. unfold both in B. apply Bool.andb_true_iff in B. destruct B as [B1 B2]. rewrite B2 in U.
      pose proof (update_arg_spec v (snd c) (policy_not_dollar v D) 0 (out_idx sc) ltac:(lia)) as S. rewrite Z.sub_0_r in S.
      destruct (update_arg (snd c) 0 (out_idx sc) v) as [args'|] eqn:Ua; [|discriminate]. simpl in U. injection U as <-.
      destruct S as (_ & Sf & Sp & Sl & Sla & _).
      assert (C' : is_copy (fst c, args') = false) by (unfold is_copy in C |- *; simpl; rewrite Sl; exact C).
      assert (E' : get_io (fst c, args') = (fst (get_io c), v)).
      { rewrite E. unfold CliModel.get_io. rewrite C'. unfold get_schema. cbn [fst snd]. rewrite M. cbn [option_map fst]. rewrite B1, B2. simpl andb. cbv iota.
        rewrite !logical_arg_0 by assumption. rewrite Sf, !nth_upd, Nat.eqb_refl.
        apply Nat.ltb_lt in Lo. rewrite Lo. simpl andb. cbv iota.
        replace (Z.to_nat (in_idx sc) =? Z.to_nat (out_idx sc)) with false by (symmetry; apply Nat.eqb_neq; auto). simpl andb. cbv iota.
        rewrite E in H. simpl in H. pose proof (dollar_nonempty v D).
        destruct (nth (Z.to_nat (in_idx sc)) (args_filter (snd c)) []); [congruence|]. destruct v; [congruence|reflexivity]. }
      assert (Ot : others (fst c, args') = others c).
      { unfold others. rewrite C', C. unfold get_schema. cbn [fst snd]. rewrite M. cbn [option_map fst]. rewrite Sf. apply blank_upd_out. }
      split; [reflexivity|]. split; [exact E'|]. split; [congruence|]. split; [exact Ot|]. split.
      + apply (nice_last c (fst c, args') v); auto.
        * intros Nm. cbn [snd]. rewrite Sf, nth_upd. rewrite Nm in M. rewrite (wb_multiply WB _ _ M). reflexivity.
        * left. rewrite E'. auto.
      + unfold Gc. rewrite C', C. cbn [fst snd]. rewrite Sp, Ot. reflexivity.
  Qed.

  (** *** chains: pipelines in which a variable of a pipe is written once and read by the next command only *)
  (** the pipes from [k] on have not been written yet; the pipe before is the current one *)
  Definition R (k : nat) (s s' : state) : Prop :=
    files V F s = files V F s'
    /\ (forall n, pipe_name n = false -> var s n = var s' n)
    /\ (forall m, S m = k -> var s (pname m) = var s' (pname m))
    /\ (forall m, k <= m -> var s (pname m) = None /\ var s' (pname m) = None).
  Definition cmd_ok (k j : nat) (c : command) : Prop :=
    k <= j /\ nice c /\
    if eqs (fst (get_io c)) [] then
      forall a, In a (snd c) -> user_arg a \/ (exists m, S m = k /\ a = pipe_var m) \/ a = pipe_var j
    else
      (k = 0 /\ user_arg (fst (get_io c)) \/ (exists m, S m = k /\ fst (get_io c) = pipe_var m) \/ (exists m, k <= m /\ fst (get_io c) = pipe_var m)
       \/ is_copy c = true /\ user_arg (fst (get_io c)) /\ user_arg (snd (get_io c)))
      /\ (user_arg (snd (get_io c)) \/ snd (get_io c) = pipe_var j)
      /\ (forall a, In a (others c) -> user_arg a \/ exists m, k <= m /\ a = pipe_var m).
  Inductive chain : nat -> list command -> Prop :=
  | chain_nil k : chain k []
  | chain_cons k j c l : cmd_ok k j c -> chain (S j) l -> chain k (c :: l).

  Lemma user_var a n : user_arg a -> var_of a = Some n -> pipe_name n = false.
  Proof. unfold user_arg. intros U E. rewrite E in U. exact U. Qed.
  Lemma R_agree k s s' (N : str -> Prop) : R k s s' ->
    (forall n, N n -> pipe_name n = false \/ (exists m, S m = k /\ n = pname m) \/ exists m, k <= m /\ n = pname m) -> agree N s s'.
  Proof.
    intros (A & B & C & D) H. split; [exact A|]. intros n Nn. destruct (H n Nn) as [U|[(m & E & ->)|(m & L & ->)]].
    - apply B, U.
    - apply C, E.
    - destruct (D m L) as [-> ->]. reflexivity.
  Qed.
  (** the same without the current pipe *)
  Definition Rw (k : nat) (s s' : state) : Prop :=
    files V F s = files V F s'
    /\ (forall n, pipe_name n = false -> var s n = var s' n)
    /\ (forall m, k <= m -> var s (pname m) = None /\ var s' (pname m) = None).
  Definition Final (s s' : state) : Prop := files V F s = files V F s' /\ forall n, pipe_name n = false -> var s n = var s' n.
  Lemma R_weak k s s' : R k s s' -> Rw k s s'.
  Proof. intros (A & B & _ & D). repeat split; auto; apply D; assumption. Qed.
  Lemma Rw_final k s s' : Rw k s s' -> Final s s'.
  Proof. intros (A & B & _). split; auto. Qed.
  Lemma Rw_sym k s s' : Rw k s s' -> Rw k s' s.
  Proof. intros (A & B & D). split; [auto|]. split; [intros n H; symmetry; auto|]. intros m L. destruct (D m L). auto. Qed.
  Lemma Rw_agree k s s' (N : str -> Prop) : Rw k s s' ->
    (forall n, N n -> pipe_name n = false \/ exists m, k <= m /\ n = pname m) -> agree N s s'.
  Proof.
    intros (A & B & D) H. split; [exact A|]. intros n Nn. destruct (H n Nn) as [U|(m & L & ->)]; [apply B, U|].
    destruct (D m L) as [-> ->]. reflexivity.
  Qed.
  (** nothing is written *)
  Lemma R_skip k j s s' : k <= j -> Rw k s s' -> R (S j) s s'.
  Proof.
    intros L (A & B & D). split; [exact A|]. split; [exact B|]. split.
    - intros m E. destruct (D m ltac:(lia)) as [-> ->]. reflexivity.
    - intros m E. apply D. lia.
  Qed.
  Lemma not_named a j m : user_arg a \/ a = pipe_var j -> m <> j -> var_of a <> Some (pname m).
  Proof.
    intros [U| ->] N Q; [pose proof (user_var _ _ U Q) as Z; rewrite pname_pipe in Z; discriminate|].
    rewrite var_of_pipe in Q. assert (P : pname j = pname m) by congruence. apply pname_inj in P. auto.
  Qed.
  Lemma R_put k j p q a v s s' : k <= j -> user_arg a \/ a = pipe_var j -> (forall f, p f a v = q f a v) ->
    Rw k s s' -> R (S j) (put_arg p s a v) (put_arg q s' a v).
  Proof.
    intros L U PQ Rk. replace (put_arg q s' a v) with (put_arg p s' a v) by (unfold put_arg; rewrite PQ; reflexivity).
    destruct (put_agree (fun n => pipe_name n = false \/ n = pname j) p s s' a v) as [Ef Ev].
    { eapply Rw_agree; [exact Rk|]. intros n [H| ->]; [auto|]. right. exists j. auto. }
    split; [exact Ef|]. split; [auto|]. split; [intros m E; injection E as ->; auto|].
    intros m E. assert (N : var_of a <> Some (pname m)) by (apply (not_named a j); [exact U|lia]).
    rewrite !(put_other _ _ _ _ _ N). apply Rk. lia.
  Qed.
  (** the variable of a pipe is written on one side only *)
  Lemma Rw_pipe k j p v s s' : k <= j -> Rw k s s' -> Rw (S j) (put_arg p s (pipe_var j) v) s'.
  Proof.
    intros L (A & B & D). split; [exact A|]. split.
    - intros n H. rewrite put_other; [apply B, H|]. rewrite var_of_pipe. intros Q. injection Q as <-. rewrite pname_pipe in H. discriminate.
    - intros m E. rewrite put_other; [apply D; lia|]. apply (not_named _ j); [auto|lia].
  Qed.
  Lemma var_put_pipe p s j v : var (put_arg p s (pipe_var j) v) (pname j) = Some v.
  Proof. unfold put_arg. rewrite dollar_pipe, var_store. rewrite pipe_var_pname. simpl tl. rewrite pname_sanitize, eqs_refl. reflexivity. Qed.
  Lemma load_pipe s j : load_arg V F load_file s (pipe_var j) = var s (pname j).
  Proof. unfold load_arg. rewrite dollar_pipe, pipe_var_pname. simpl tl. rewrite pname_sanitize. reflexivity. Qed.

  Lemma Gc_agree k c s s' v : nice c -> fst (get_io c) <> [] -> (forall a, In a (others c) -> user_arg a \/ exists m, k <= m /\ a = pipe_var m) ->
    Rw k s s' -> Gc c s v = Gc c s' v.
  Proof.
    intros N H O Rk. unfold Gc.
    destruct (get_io_some c H) as [(C & E)|(C & _ & sc & h & M & _ & _ & _ & E & Li & Lo & _ & _ & Rt)]; rewrite C; [reflexivity|].
    destruct Rt as [X _]. apply X. apply (Rw_agree k); [exact Rk|]. intros n [U|I]; [auto|].
    apply in_map_iff in I. destruct I as (a & Ea & I). destruct (O a I) as [U|(m & L & ->)].
    - left. apply (user_var a); assumption.
    - rewrite var_of_pipe in Ea. injection Ea as <-. right. exists m. auto.
  Qed.
  Lemma load_R k s s' a : R k s s' ->
    user_arg a \/ (exists m, S m = k /\ a = pipe_var m) \/ (exists m, k <= m /\ a = pipe_var m) ->
    load_arg V F load_file s a = load_arg V F load_file s' a.
  Proof.
    intros Rk [U|[(m & E & ->)|(m & L & ->)]].
    - apply (load_agree (fun n => pipe_name n = false)); [|intros n; apply user_var, U]. apply (R_agree k); [exact Rk|]. auto.
    - rewrite !load_pipe. apply Rk, E.
    - rewrite !load_pipe. destruct Rk as (_ & _ & _ & D). destruct (D m L) as [-> ->]. reflexivity.
  Qed.

  Lemma agree_sym (N : str -> Prop) s s' : agree N s s' -> agree N s' s.
  Proof. intros [A B]. split; [auto|]. intros n H. symmetry. auto. Qed.
  Lemma R_step k j c s s' : cmd_ok k j c -> R k s s' -> R (S j) (exec c s) (exec c s').
  Proof.
    intros (L & N & H) Rk. destruct (eqs_spec (fst (get_io c)) []) as [E|E].
    - destruct (exec_local c E N) as [Lo|Sk]; [|rewrite !Sk; apply (R_skip k); [exact L|apply R_weak, Rk]].
      assert (A : agree (visible (snd c)) s s').
      { apply (R_agree k); [exact Rk|]. intros n [U|I]; [auto|]. apply in_map_iff in I. destruct I as (a & Ea & I).
        destruct (H a I) as [U|[(m & Em & ->)| ->]].
        - left. apply (user_var a); assumption.
        - rewrite var_of_pipe in Ea. injection Ea as <-. right. left. exists m. auto.
        - rewrite var_of_pipe in Ea. injection Ea as <-. right. right. exists j. auto. }
      assert (X : forall m, j < m -> ~ visible (snd c) (pname m)).
      { intros m Lm [U|I]; [rewrite pname_pipe in U; discriminate|]. apply in_map_iff in I. destruct I as (a & Ea & I).
        destruct (H a I) as [U|[(m' & Em & ->)| ->]].
        - pose proof (user_var a _ U Ea) as Z. rewrite pname_pipe in Z. discriminate.
        - rewrite var_of_pipe in Ea. assert (P : pname m' = pname m) by congruence. apply pname_inj in P. lia.
        - rewrite var_of_pipe in Ea. assert (P : pname j = pname m) by congruence. apply pname_inj in P. lia. }
      destruct (Lo _ _ _ A) as [[Ef Ev] Ab]. destruct (Lo _ _ _ (agree_sym _ _ _ A)) as [_ Ab'].
      pose proof (R_weak _ _ _ Rk) as (_ & _ & D).
      split; [exact Ef|]. split; [intros n U; apply Ev; left; exact U|]. split.
      + intros m Em. injection Em as ->.
        destruct (in_dec (fun x y : option str => ltac:(decide equality; apply (list_eq_dec ascii_dec))) (Some (pname j)) (map var_of (snd c))) as [I|I].
        * apply Ev. right. exact I.
        * assert (Z : ~ visible (snd c) (pname j)) by (intros [U|I']; [rewrite pname_pipe in U; discriminate|contradiction]).
          destruct (D j L) as [D1 D2]. rewrite (Ab _ Z D1), (Ab' _ Z D2). reflexivity.
      + intros m Lm. destruct (D m ltac:(lia)) as [D1 D2]. split; [apply Ab|apply Ab']; auto.
    - destruct H as (Hi & Ho & Hr). rewrite !exec_io by assumption. rewrite (load_R k s s' _ Rk) by intuition.
      destruct (load_arg V F load_file s' (fst (get_io c))) as [v|]; [|apply (R_skip k); [exact L|apply R_weak, Rk]].
      rewrite (Gc_agree k c s s' v N E Hr (R_weak _ _ _ Rk)).
      destruct (Gc c s' v) as [w|]; [|apply (R_skip k); [exact L|apply R_weak, Rk]].
      apply (R_put k); auto. apply R_weak, Rk.
  Qed.

  (** *** the rewriting steps *)
  Lemma Gc_same_put c1 c2 a (v : any) : dollar a = true -> forall st, put_arg (put c1) st a v = put_arg (put c2) st a v.
  Proof. intros D st. unfold put_arg. rewrite D. reflexivity. Qed.

  (** two commands joined by a pipe, against one that reads the first input and writes the last output *)
  Lemma fuse k j j2 c1 c2 c s s' :
    cmd_ok k j c1 -> cmd_ok (S j) j2 c2 -> fst (get_io c1) <> [] -> fst (get_io c2) <> [] ->
    snd (get_io c1) = pipe_var j -> fst (get_io c2) = pipe_var j ->
    nice c -> get_io c = (fst (get_io c1), snd (get_io c2)) ->
    (fst c = fst c2 \/ dollar (snd (get_io c2)) = true) ->
    (forall v t t', R k t t' -> let t1 := put_arg (put (fst c1)) t (pipe_var j) in
       Gc c t' v = match Gc c1 t v with Some w => Gc c2 (t1 w) w | None => None end) ->
    R k s s' -> R (S j2) (exec c2 (exec c1 s)) (exec c s').
  Proof.
    intros (L1 & N1 & H1) (L2 & N2 & H2) E1 E2 O1 I2 N Io D X Rk.
    destruct (eqs_spec (fst (get_io c1)) []) as [|_]; [contradiction|]. destruct (eqs_spec (fst (get_io c2)) []) as [|_]; [contradiction|].
    destruct H1 as (Hi & _ & _). destruct H2 as (_ & Ho & _).
    rewrite (exec_io c s') by (try assumption; rewrite Io; exact E1).
    rewrite (exec_io c1 s) by assumption. rewrite Io. cbn [fst snd]. rewrite (load_R k s s' _ Rk) by intuition. rewrite O1.
    pose proof (R_weak _ _ _ Rk) as Rw_. assert (A : var s (pname j) = None) by (apply Rw_; exact L1).
    destruct (load_arg V F load_file s' (fst (get_io c1))) as [v|].
    - rewrite (X v s s' Rk). cbv zeta. destruct (Gc c1 s v) as [w|].
      + rewrite exec_io by assumption. rewrite I2, load_pipe, var_put_pipe.
        destruct (Gc c2 (put_arg (put (fst c1)) s (pipe_var j) w) w) as [u|].
        * replace (put_arg (put (fst c)) s' (snd (get_io c2)) u) with (put_arg (put (fst c2)) s' (snd (get_io c2)) u)
            by (destruct D as [->|D]; [reflexivity|apply Gc_same_put, D]).
          apply (R_put (S j)); auto. apply (Rw_pipe k); assumption.
        * apply (R_skip (S j)); [lia|]. apply (Rw_pipe k); assumption.
      + rewrite exec_io by assumption. rewrite I2, load_pipe, A. apply (R_skip k); [lia|assumption].
    - rewrite exec_io by assumption. rewrite I2, load_pipe, A. apply (R_skip k); [lia|assumption].
  Qed.

  Lemma copy_io a b r : get_io (lit "copy", a :: b :: r) = (a, b).
  Proof. reflexivity. Qed.
  Lemma copy_nice a b : dollar a = true -> dollar b = true -> nice (lit "copy", [a; b]).
  Proof. intros A B. split; [intros _; auto|]. split; [intros [Q|Q]; discriminate Q|intros Q; discriminate Q]. Qed.
  Lemma snd_io c : nice c -> snd (get_io c) <> [] -> fst (get_io c) <> [].
  Proof.
    intros N H. destruct (is_copy c) eqn:C.
    - unfold CliModel.get_io. rewrite C. simpl. apply dollar_nonempty. apply N, C.
    - unfold CliModel.get_io in *. rewrite C in *. destruct (get_schema V F reg (fst c)); [|exact H].
      destruct (negb (in_idx s =? -1)%Z && negb (out_idx s =? -1)%Z); [|exact H].
      destruct (logical_arg (snd c) 0 (in_idx s)); [exact H|]. destruct (logical_arg (snd c) 0 (out_idx s)); [exact H|]. discriminate.
  Qed.
  Lemma rule_one_ok k j c : cmd_ok k j c -> cmd_ok k j (fst (rule_one V F reg is_one c)) /\ forall s, exec (fst (rule_one V F reg is_one c)) s = exec c s.
  Proof.
    intros (L & N & H). unfold rule_one.
    destruct (eqs (fst c) (lit "multiply") && (3 <=? length (snd c)) && is_one (last (snd c) [])) eqn:E; [|split; [split; auto|reflexivity]].
    apply Bool.andb_true_iff in E. destruct E as [E E3]. apply Bool.andb_true_iff in E. destruct E as [E1 E2].
    apply eqs_eq in E1. apply Nat.leb_le in E2. pose proof N as (_ & _ & N3). destruct (N3 E1 E2 E3) as (Di & Do & On).
    pose proof (dollar_nonempty _ Di) as Hi. destruct (eqs_spec (fst (get_io c)) []) as [|_]; [contradiction|].
    destruct (get_io c) as [i o] eqn:Io. cbn [fst snd] in *.
    assert (Nc : nice (lit "copy", [i; o])) by (apply copy_nice; assumption). split.
    - split; [exact L|]. split; [exact Nc|]. rewrite copy_io. cbn [fst snd].
      destruct (eqs_spec i []) as [|_]; [contradiction|]. destruct H as (H1 & H2 & _). split; [|split; [exact H2|contradiction]].
      destruct H1 as [H1|[H1|[H1|(C & _)]]]; [auto|auto|auto|]. apply is_copy_name in C. destruct C as [C _]. rewrite E1 in C. discriminate.
    - intros s. pose proof (exec_io _ s Nc Hi) as Z. rewrite copy_io in Z. cbn [fst snd] in Z |- *. rewrite Z. clear Z. rewrite (exec_io c s N) by (rewrite Io; exact Hi).
      rewrite Io. cbn [fst snd]. destruct (load_arg V F load_file s i) as [v|]; [|reflexivity].
      assert (Gv : Gc c s v = Some v).
      { unfold Gc. destruct (is_copy c); [reflexivity|]. unfold others.
        assert (Hi' : fst (get_io c) <> []) by (rewrite Io; exact Hi).
        destruct (get_io_some c Hi') as [(C & _)|(C & _ & sc & h & M & _)].
        - apply is_copy_name in C. destruct C as [C _]. rewrite E1 in C. discriminate.
        - rewrite C. unfold get_schema. rewrite M. cbn [option_map fst]. rewrite E1 in M |- *. rewrite (wb_multiply WB _ _ M).
          apply (wb_neutral WB). unfold blank. change (Z.to_nat (in_idx TransformerSchema)) with 0. change (Z.to_nat (out_idx TransformerSchema)) with 1.
          rewrite !nth_upd. exact On. }
      rewrite Gv. change (Gc (lit "copy", [i; o]) s v) with (Some v). apply Gc_same_put, Do.
  Qed.

  Lemma chain_step k c l : chain k (c :: l) -> exists j, cmd_ok k j c /\ chain (S j) l.
  Proof. intros H. inversion H; subst. eauto. Qed.
  (** the pipe between two commands of a chain *)
  Lemma joint k j j2 c1 c2 : cmd_ok k j c1 -> cmd_ok (S j) j2 c2 -> snd (get_io c1) <> [] -> snd (get_io c1) = fst (get_io c2) ->
    fst (get_io c1) <> [] /\ fst (get_io c2) <> [] /\
    (snd (get_io c1) = pipe_var j /\ fst (get_io c2) = pipe_var j \/ is_copy c2 = true /\ user_arg (snd (get_io c1))).
  Proof.
    intros (L1 & N1 & H1) (L2 & N2 & H2) S1 E. pose proof (snd_io c1 N1 S1) as F1. assert (F2 : fst (get_io c2) <> []) by congruence.
    destruct (eqs_spec (fst (get_io c1)) []) as [|_]; [contradiction|]. destruct (eqs_spec (fst (get_io c2)) []) as [|_]; [contradiction|].
    destruct H1 as (_ & Ho & _). destruct H2 as (Hi & _ & _). rewrite E in Ho |- *.
    split; [exact F1|]. split; [exact F2|].
    destruct Ho as [U|P]; [|auto]. destruct Hi as [[Z _]|[(m & _ & P)|[(m & _ & P)|(C & _)]]]; [discriminate| | |auto]; destruct (user_not_pipe _ m U P).
  Qed.
  Lemma cmd_ok_io k j c : cmd_ok k j c -> fst (get_io c) <> [] ->
      (k = 0 /\ user_arg (fst (get_io c)) \/ (exists m, S m = k /\ fst (get_io c) = pipe_var m) \/ (exists m, k <= m /\ fst (get_io c) = pipe_var m)
       \/ is_copy c = true /\ user_arg (fst (get_io c)) /\ user_arg (snd (get_io c)))
      /\ (user_arg (snd (get_io c)) \/ snd (get_io c) = pipe_var j)
      /\ (forall a, In a (others c) -> user_arg a \/ exists m, k <= m /\ a = pipe_var m).
  Proof. intros (_ & _ & H) E. destruct (eqs_spec (fst (get_io c)) []); [contradiction|exact H]. Qed.
  Lemma cmd_ok_intro k j c : k <= j -> nice c ->
      (k = 0 /\ user_arg (fst (get_io c)) \/ (exists m, S m = k /\ fst (get_io c) = pipe_var m) \/ (exists m, k <= m /\ fst (get_io c) = pipe_var m)) ->
      (user_arg (snd (get_io c)) \/ snd (get_io c) = pipe_var j) ->
      (forall a, In a (others c) -> user_arg a \/ exists m, k <= m /\ a = pipe_var m) -> fst (get_io c) <> [] ->
      cmd_ok k j c.
  Proof. intros L N A B C E. split; [exact L|]. split; [exact N|]. destruct (eqs_spec (fst (get_io c)) []); [contradiction|]. split; [|auto]. destruct A as [A|[A|A]]; auto. Qed.

  Notation pass := (pass V F reg is_one).
  Notation rule_one := (rule_one V F reg is_one).

  Lemma run_R l : forall k s s', chain k l -> R k s s' -> Final (run l s) (run l s').
  Proof.
    induction l as [|c l IH]; intros k s s' Ch Rk; [apply (Rw_final k), R_weak, Rk|].
    destruct (chain_step _ _ _ Ch) as (j & K & Ch'). simpl. apply (IH (S j)); [exact Ch'|]. apply (R_step k); assumption.
  Qed.
  Lemma R_self k s s' : R k s s' -> R k s' s'.
  Proof. intros (_ & _ & _ & D). repeat split; auto; apply D; assumption. Qed.
  Lemma Final_trans s t u : Final s t -> Final t u -> Final s u.
  Proof. intros [A B] [C D]. split; [congruence|]. intros n H. rewrite B by exact H. apply D, H. Qed.
  Definition keeps (k : nat) (l l' : list command) : Prop := chain k l' /\ forall s s', R k s s' -> Final (run l s) (run l' s').

  Lemma inverse_G c1 c2 : inverse_pair (fst c1) (fst c2) = true -> is_copy c1 = false -> is_copy c2 = false ->
    forall v t t', exists w, Gc c1 t v = Some w /\ Gc c2 t' w = Some v.
  Proof.
    intros H C1 C2 v t t'. unfold Gc. rewrite C1, C2. unfold inverse_pair in H. apply Bool.orb_true_iff in H. rewrite !Bool.andb_true_iff, !eqs_eq in H.
    destruct H as [[-> ->]|[-> ->]]; [apply (wb_dct WB)|apply (wb_idct WB)].
  Qed.
  Lemma inverse_names a b : inverse_pair a b = true -> (a = lit "dct2" \/ a = lit "idct2") /\ (b = lit "dct2" \/ b = lit "idct2").
  Proof. unfold inverse_pair. rewrite Bool.orb_true_iff, !Bool.andb_true_iff, !eqs_eq. intuition. Qed.
  Lemma dct_not_copy (c : command) : fst c = lit "dct2" \/ fst c = lit "idct2" -> is_copy c = false.
  Proof. intros H. unfold is_copy. destruct H as [-> | ->]; reflexivity. Qed.

  Lemma pass_ok n : forall rest c k, length rest <= n -> chain k (c :: rest) -> keeps k (c :: rest) (fst (pass rest c)).
  Proof.
    induction n as [|n IH]; intros rest c0 k Ln Ch.
    { destruct rest; [|simpl in Ln; lia]. simpl. destruct (chain_step _ _ _ Ch) as (j & K & _). destruct (rule_one_ok k j c0 K) as [K' X].
      destruct (rule_one c0) as [c ch]. cbn [fst] in *. split; [apply (chain_cons k j); [exact K'|constructor]|].
      intros s s' Rk. simpl. rewrite X. eapply Rw_final, R_weak, R_step; [exact K|exact Rk]. }
    destruct rest as [|c2 rest].
    { simpl. destruct (chain_step _ _ _ Ch) as (j & K & _). destruct (rule_one_ok k j c0 K) as [K' X].
      destruct (rule_one c0) as [c ch]. cbn [fst] in *. split; [apply (chain_cons k j); [exact K'|constructor]|].
      intros s s' Rk. simpl. rewrite X. eapply Rw_final, R_weak, R_step; [exact K|exact Rk]. }
    destruct (chain_step _ _ _ Ch) as (j & K0 & Ch2). destruct (rule_one_ok k j c0 K0) as [K1 X]. cbn [CliModel.pass].
    destruct (rule_one c0) as [c1 ch]. cbn [fst] in K1, X.
    match goal with |- keeps k _ ?l => enough (W : keeps k (c1 :: c2 :: rest) l) end.
    { split; [apply W|]. intros s s' Rk. replace (run (c0 :: c2 :: rest) s) with (run (c1 :: c2 :: rest) s) by (simpl; rewrite X; reflexivity). apply W, Rk. }
    clear X K0 Ch c0. destruct (chain_step _ _ _ Ch2) as (j2 & K2 & Ch3). simpl in Ln.
    (* nothing is done *)
    assert (Cont : keeps k (c1 :: c2 :: rest) (fst (let '(l, ch') := pass rest c2 in (c1 :: l, ch || ch')))).
    { destruct (IH rest c2 (S j) ltac:(lia) Ch2) as [A B]. destruct (pass rest c2) as [l ch']. cbn [fst] in *. split.
      - apply (chain_cons k j); assumption.
      - intros s s' Rk. apply (B (exec c1 s) (exec c1 s')). apply (R_step k); assumption. }
    destruct (get_io c1) as [in1 out1] eqn:Io1. destruct (get_io c2) as [in2 out2] eqn:Io2. cbv zeta.
    assert (Nz : out1 <> [] \/ out1 = []) by (destruct out1; [auto|left; discriminate]).
    destruct Nz as [Nz| ->]; [|exact Cont].
    replace (match out1 with [] => false | _ => true end) with true by (destruct out1; [contradiction|reflexivity]). rewrite Bool.andb_true_l.
    destruct (eqs_spec out1 in2) as [Eio|]; [|exact Cont].
    destruct (joint k j j2 c1 c2 K1 K2) as (F1 & F2 & [(P1 & P2)|(C2 & U1)]); [rewrite Io1; exact Nz|rewrite Io1, Io2; exact Eio| |].
    2: { (* a copy of a variable of the user is left alone *)
      rewrite Io1 in U1. cbn [snd] in U1. rewrite <- Eio, (user_pipe_arg _ U1), !Bool.andb_false_r.
      destruct (inverse_pair (fst c1) (fst c2)) eqn:Inv; [|exact Cont]. exfalso.
      apply is_copy_name in C2. destruct C2 as [C2 _]. unfold inverse_pair in Inv. rewrite C2, !Bool.andb_false_r in Inv. discriminate. }
    destruct (cmd_ok_io _ _ _ K1 F1) as (A1 & B1 & O1). destruct (cmd_ok_io _ _ _ K2 F2) as (A2 & B2 & O2).
    pose proof K1 as (L1 & N1 & _). pose proof K2 as (L2 & N2 & _).
    rewrite Io1 in F1, P1, A1, B1. rewrite Io2 in F2, P2, A2, B2. cbn [fst snd] in *.
    assert (Ln' : length rest <= n) by lia.
    assert (A1' : k = 0 /\ user_arg in1 \/ (exists m, S m = k /\ in1 = pipe_var m) \/ (exists m, k <= m /\ in1 = pipe_var m)).
    { destruct A1 as [A1|[A1|[A1|(_ & _ & U)]]]; [auto|auto|auto|]. destruct (user_not_pipe _ j U P1). }
    clear A1. rename A1' into A1.
    (* one command instead of the two *)
    assert (Fuse : forall c, nice c -> get_io c = (in1, out2) -> (forall a, In a (others c) -> user_arg a \/ exists m, k <= m /\ a = pipe_var m) ->
      (fst c = fst c2 \/ dollar out2 = true) ->
      (forall v t t', R k t t' -> let t1 := put_arg (put (fst c1)) t (pipe_var j) in
         Gc c t' v = match Gc c1 t v with Some w => Gc c2 (t1 w) w | None => None end) ->
      cmd_ok k j2 c /\ forall s s', R k s s' -> R (S j2) (exec c2 (exec c1 s)) (exec c s')).
    { intros c Nc Ioc Oc Dc Gcc. split.
      - apply cmd_ok_intro; rewrite ?Ioc; cbn [fst snd]; auto. lia.
      - intros s s' Rk. apply (fuse k j j2 c1 c2 c); rewrite ?Io1, ?Io2; cbn [fst snd]; auto. }
    assert (Go : forall c, cmd_ok k j2 c -> (forall s s', R k s s' -> R (S j2) (exec c2 (exec c1 s)) (exec c s')) ->
      keeps k (c1 :: c2 :: rest) (fst (let '(l, _) := pass rest c in (l, true)))).
    { intros c Kc Sc. destruct (IH rest c k Ln' (chain_cons k j2 c rest Kc Ch3)) as [A B].
      destruct (pass rest c) as [l ch']. cbn [fst] in *. split; [exact A|]. intros s s' Rk.
      apply (Final_trans _ (run (c :: rest) s')); [|apply B, (R_self k s), Rk].
      simpl. apply (run_R rest (S j2)); [exact Ch3|]. apply Sc, Rk. }
    destruct (inverse_pair (fst c1) (fst c2)) eqn:Inv.
    - (* A *)
      destruct (inverse_names _ _ Inv) as [I1 I2]. pose proof (dct_not_copy _ I1) as C1. pose proof (dct_not_copy _ I2) as C2.
      destruct N1 as (N1a & N1b & N1c). destruct N2 as (N2a & N2b & N2c).
      destruct (N1b I1) as [Di _]; [rewrite Io1; exact F1|]. destruct (N2b I2) as [_ Do]; [rewrite Io2; exact F2|].
      rewrite Io1 in Di. rewrite Io2 in Do. cbn [fst snd] in Di, Do.
      destruct (Fuse (lit "copy", [in1; out2])) as [Kc Sc].
      + apply copy_nice; assumption.
      + apply copy_io.
      + intros a [].
      + auto.
      + intros v t t' _ t1. destruct (inverse_G c1 c2 Inv C1 C2 v t (t1 v)) as (w & G1 & _). rewrite G1.
        destruct (inverse_G c1 c2 Inv C1 C2 v t (t1 w)) as (w' & G1' & G2). rewrite G1 in G1'. injection G1' as <-. rewrite G2. reflexivity.
      + destruct rest as [|c3 rest].
        * cbn [fst]. split; [apply (chain_cons k j2); [exact Kc|constructor]|]. intros s s' Rk. simpl. eapply Rw_final, R_weak. apply Sc, Rk.
        * assert (Ln3 : length rest <= n) by (clear - Ln'; simpl in Ln'; lia). clear Ln Ln' Go Fuse Cont.
          destruct (IH rest c3 (S j2) Ln3 Ch3) as [A B]. destruct (pass rest c3) as [l ch']. cbn [fst]. cbn [fst] in A, B. split.
          -- apply (chain_cons k j2); assumption.
          -- intros s s' Rk. apply (B (exec c2 (exec c1 s)) (exec (lit "copy", [in1; out2]) s')). apply Sc, Rk.
    - destruct (if eqs (fst c1) (lit "copy") && pipe_arg out1 then update_in V F reg c2 in1 else None) as [c2'|] eqn:UB.
      + (* B *)
        destruct (eqs_spec (fst c1) (lit "copy")) as [Ec|]; [|discriminate]. rewrite Bool.andb_true_l in UB. destruct (pipe_arg out1); [|discriminate].
        assert (C1 : is_copy c1 = true).
        { destruct (get_io_some c1) as [(C & _)|(_ & Nc & _)]; [rewrite Io1; exact F1|exact C|contradiction]. }
        assert (Di : dollar in1 = true).
        { destruct N1 as (N1a & _). destruct (N1a C1) as [Di _]. unfold CliModel.get_io in Io1. rewrite C1 in Io1. injection Io1 as <- _. exact Di. }
        destruct (update_in_ok c2 in1 c2' N2) as (Q1 & Q2 & Q3 & Q4 & Q5 & Q6); [rewrite Io2; exact F2|exact Di|exact UB|].
        rewrite Io2 in Q2. cbn [snd] in Q2.
        destruct (Fuse c2') as [Kc Sc]; auto.
        * rewrite Q4. intros a Ia. destruct (O2 a Ia) as [U|(m & Lm & ->)]; [auto|]. right. exists m. split; [lia|reflexivity].
        * intros v t t' Rt t1. unfold Gc at 2. rewrite C1. rewrite Q6.
          apply (Gc_agree (S j)); [exact N2|rewrite Io2; exact F2|exact O2|]. apply Rw_sym. unfold t1.
          apply (Rw_pipe k); [exact L1|]. apply R_weak, Rt.
      + clear UB. destruct (if eqs (fst c2) (lit "copy") && pipe_arg in2 then update_out V F reg c1 out2 else None) as [c1'|] eqn:UC; [|exact Cont].
        (* C *)
        destruct (eqs_spec (fst c2) (lit "copy")) as [Ec|]; [|discriminate]. rewrite Bool.andb_true_l in UC. destruct (pipe_arg in2); [|discriminate].
        assert (C2 : is_copy c2 = true).
        { destruct (get_io_some c2) as [(C & _)|(_ & Nc & _)]; [rewrite Io2; exact F2|exact C|contradiction]. }
        assert (Do : dollar out2 = true).
        { destruct N2 as (N2a & _). destruct (N2a C2) as [_ Do]. unfold CliModel.get_io in Io2. rewrite C2 in Io2. injection Io2 as _ <-. exact Do. }
        destruct (update_out_ok c1 out2 c1' N1) as (Q1 & Q2 & Q3 & Q4 & Q5 & Q6); [rewrite Io1; exact F1|exact Do|exact UC|].
        rewrite Io1 in Q2. cbn [fst] in Q2.
        destruct (Fuse c1') as [Kc Sc]; auto.
        * rewrite Q4. exact O1.
        * intros v t t' Rt t1. unfold Gc at 3. rewrite C2. rewrite Q6.
          rewrite (Gc_agree k c1 t t' v N1) by (try (rewrite Io1; exact F1); try exact O1; apply R_weak, Rt).
          destruct (Gc c1 t' v); reflexivity.
  Qed.

  Lemma optimize_ok fuel : forall l l', optimize V F reg is_one fuel l = Some l' -> chain 0 l -> keeps 0 l l'.
  Proof.
    induction fuel as [|n IH]; intros l l' E Ch; [discriminate|]. simpl in E.
    assert (K : keeps 0 l (fst (run_pass V F reg is_one l))).
    { destruct l as [|c l].
      - split; [constructor|]. intros s s' Rk. apply (Rw_final 0), R_weak, Rk.
      - apply (pass_ok (length l)); [apply le_n|exact Ch]. }
    destruct (run_pass V F reg is_one l) as [l1 ch]. cbn [fst] in K. destruct ch; [|injection E as <-; exact K].
    destruct K as [Ch1 S1]. destruct (IH l1 l' E Ch1) as [Ch2 S2]. split; [exact Ch2|].
    intros s s' Rk. apply (Final_trans _ (run l1 s')); [apply S1, Rk|]. apply S2, (R_self 0 s), Rk.
  Qed.

  (** *** the pipelines that come out of a line *)
  (** every command of the program has its input first, and its output after that *)
  Definition usual (sc : schema) : Prop := (in_idx sc = -1 \/ in_idx sc = 0)%Z /\ (out_idx sc = -1 \/ 1 <= out_idx sc)%Z.
  Hypothesis US : forall name sc h, map_find name reg = Some (sc, h) -> usual sc.

  Lemma insert_in args idx v a : In a (insert_arg args idx v) -> In a args \/ a = v.
  Proof.
    unfold insert_arg. cbv zeta. intros H. apply in_app_or in H. destruct H as [H|[H|H]]; [|auto|].
    - left. rewrite <- (firstn_skipn (Z.to_nat (Z.min idx (Z.of_nat (length args)))) args). apply in_or_app. auto.
    - left. rewrite <- (firstn_skipn (Z.to_nat (Z.min idx (Z.of_nat (length args)))) args). apply in_or_app. auto.
  Qed.
  Lemma insert_head args v : insert_arg args 0 v = v :: args.
  Proof. unfold insert_arg. cbv zeta. replace (Z.min 0 (Z.of_nat (length args))) with 0%Z by lia. reflexivity. Qed.
  Lemma insert_tail p args idx v : (1 <= idx)%Z -> insert_arg (p :: args) idx v = p :: insert_arg args (idx - 1) v.
  Proof.
    intros H. unfold insert_arg. cbv zeta. cbn [length].
    replace (Z.to_nat (Z.min idx (Z.of_nat (S (length args))))) with (S (Z.to_nat (Z.min (idx - 1) (Z.of_nat (length args))))) by lia. reflexivity.
  Qed.
  Lemma In_filter_args a args : In a (args_filter args) -> In a args.
  Proof. unfold args_filter. intros H. apply filter_In in H. apply H. Qed.

  (** all arguments but, perhaps, the first are the user's or the next pipe *)
  Lemma cmd_ok_build k c : nice c ->
    (forall a, In a (snd c) -> user_arg a \/ (exists m, S m = k /\ a = pipe_var m) \/ a = pipe_var k) ->
    (fst (get_io c) <> [] ->
      k = 0 \/ (is_copy c = true /\ forall a, In a (snd c) -> user_arg a) \/ exists m r, S m = k /\ snd c = pipe_var m :: r /\ forall a, In a r -> user_arg a \/ a = pipe_var k) ->
    (forall sc h, map_find (fst c) reg = Some (sc, h) -> both sc = true -> in_idx sc = 0%Z /\ (1 <= out_idx sc)%Z) ->
    cmd_ok k k c.
  Proof.
    intros N A B Sc. split; [lia|]. split; [exact N|]. destruct (eqs_spec (fst (get_io c)) []) as [E|E]; [exact A|].
    specialize (B E). destruct B as [K0|[(C & U)|(m & r & Em & Es & Hr)]].
    - assert (A' : forall a, In a (snd c) -> user_arg a \/ exists m, k <= m /\ a = pipe_var m).
      { intros a I. destruct (A a I) as [U|[(m & Em & _)|P]]; [auto|lia|]. right. exists k. auto. }
      assert (A'' : forall a, In a (snd c) -> user_arg a \/ a = pipe_var k).
      { intros a I. destruct (A a I) as [U|[(m & Em & _)|P]]; auto. lia. }
      destruct (get_io_some c E) as [(C & Io)|(C & _ & sc & h & M & Bo & _ & _ & Io & Li & Lo & _ & _ & _)]; rewrite Io; cbn [fst snd].
      + destruct (is_copy_name c C) as (_ & a & b & r & Es). rewrite Es in A', A'' |- *. cbn [nth].
        split; [|split].
        * destruct (A' a (or_introl eq_refl)) as [U|X]; auto.
        * apply A''. right. left. reflexivity.
        * unfold others. rewrite C. contradiction.
      + split; [|split].
        * destruct (A' _ (In_filter_args _ _ (nth_In _ [] Li))) as [U|X]; auto.
        * apply A'', In_filter_args, nth_In, Lo.
        * unfold others. rewrite C. unfold get_schema. rewrite M. cbn [option_map fst]. intros a I.
          apply blank_in in I. destruct I as [I| ->]; [apply A', In_filter_args, I|left; apply user_nil].
    - destruct (is_copy_name c C) as (_ & a & b & r & Es). unfold CliModel.get_io, others. rewrite C, Es in *. cbn [nth fst snd].
      assert (Ua : user_arg a) by (apply U; left; reflexivity). assert (Ub : user_arg b) by (apply U; right; left; reflexivity).
      split; [|split; [auto|contradiction]]. right. right. right. auto.
    - assert (Fl : args_filter (snd c) = pipe_var m :: args_filter r).
      { rewrite Es. unfold args_filter. cbn [filter]. rewrite (policy_not_dollar _ (dollar_pipe m)). reflexivity. }
      destruct (get_io_some c E) as [(C & Io)|(C & _ & sc & h & M & Bo & _ & _ & Io & Li & Lo & _ & _ & _)]; rewrite Io; cbn [fst snd].
      + destruct (is_copy_name c C) as (_ & a & b & r' & Es'). rewrite Es' in Es |- *. injection Es as -> <-. cbn [nth].
        split; [right; left; exists m; auto|]. split; [apply Hr; left; reflexivity|]. unfold others. rewrite C. contradiction.
      + destruct (Sc sc h M Bo) as [Zi Zo]. rewrite Zi in *. change (Z.to_nat 0) with 0 in *. rewrite Fl in *.
        assert (Ho : exists q, Z.to_nat (out_idx sc) = S q) by (exists (Z.to_nat (out_idx sc) - 1); lia). destruct Ho as (q & Ho). rewrite Ho in *.
        cbn [nth length] in *. split; [right; left; exists m; auto|]. split; [apply Hr, In_filter_args, nth_In; lia|].
        unfold others. rewrite C. unfold get_schema. rewrite M. cbn [option_map fst]. rewrite Fl. unfold blank. rewrite Zi, Ho. change (Z.to_nat 0) with 0.
        cbn [list_upd]. intros a [<-|I]; [left; apply user_nil|]. apply list_upd_in in I. destruct I as [I| ->]; [|left; apply user_nil].
        destruct (Hr a (In_filter_args _ _ I)) as [U| ->]; [auto|]. right. exists k. auto.
  Qed.

  Lemma build_chain segs : forall i prev final acc L,
    (forall seg a, In seg segs -> In a (tl seg) -> user_arg a) -> user_arg final ->
    prev = match i with 0 => [] | S m => pipe_var m end ->
    build V F reg segs i prev final acc = Run L -> exists l, L = acc ++ l /\ (Forall nice l -> chain i l).
  Proof.
    induction segs as [|seg segs IH]; intros i prev final acc L Us Uf Ep E.
    - simpl in E. injection E as <-. exists []. rewrite app_nil_r. split; [reflexivity|constructor].
    - destruct seg as [|name args]; [discriminate|]. cbn [build] in E.
      destruct (eqs name (lit "exit") || eqs name (lit "quit")); [discriminate|].
      unfold get_schema in E. destruct (map_find name reg) as [[sc h]|] eqn:M; [|discriminate]. cbn [option_map fst] in E.
      set (next := match segs with [] => final | _ => pipe_var i end) in E.
      set (a1 := if negb (in_idx sc =? -1)%Z && match prev with [] => false | _ => true end then insert_arg args (in_idx sc) prev else args) in E.
      set (a2 := if negb (out_idx sc =? -1)%Z && match next with [] => false | _ => true end then insert_arg a1 (out_idx sc) next else a1) in E.
      assert (Ua : forall a, In a args -> user_arg a) by (intros a I; apply (Us (name :: args) a); [left; reflexivity|exact I]).
      assert (Un : user_arg next \/ next = pipe_var i) by (unfold next; destruct segs; auto).
      assert (H1 : forall a, In a a1 -> user_arg a \/ exists m, S m = i /\ a = pipe_var m).
      { intros a I. unfold a1 in I. destruct (negb (in_idx sc =? -1)%Z && match prev with [] => false | _ => true end); [|auto].
        apply insert_in in I. destruct I as [I|I]; [auto|]. rewrite Ep in I. destruct i as [|m]; [left; rewrite I; apply user_nil|]. right. exists m. auto. }
      assert (H2 : forall a, In a a2 -> user_arg a \/ (exists m, S m = i /\ a = pipe_var m) \/ a = pipe_var i).
      { intros a I. unfold a2 in I. destruct (negb (out_idx sc =? -1)%Z && match next with [] => false | _ => true end).
        - apply insert_in in I. destruct I as [I|I]; [destruct (H1 a I); auto|]. subst a. destruct Un; auto.
        - destruct (H1 a I); auto. }
      assert (Sch : forall sc' h', map_find name reg = Some (sc', h') -> both sc' = true -> in_idx sc' = 0%Z /\ (1 <= out_idx sc')%Z).
      { intros sc' h' M' Bo. rewrite M in M'. injection M' as <- <-. destruct (US _ _ _ M) as [A B]. unfold both in Bo. lia. }
      assert (K : nice (name, a2) -> cmd_ok i i (name, a2)).
      { intros N. apply cmd_ok_build; [exact N|exact H2| |exact Sch].
        intros Hio. destruct i as [|m]; [auto|].
        assert (Bo : both sc = true \/ sc = IndependentSchema /\ is_copy (name, a2) = true).
        { destruct (get_io_some (name, a2) Hio) as [(C & _)|(_ & _ & sc' & h' & M' & Bo & _)].
          - pose proof C as C'. apply is_copy_name in C. destruct C as [C _]. cbn [fst] in C. subst name. destruct (wb_copy WB) as (h' & M'). rewrite M in M'. injection M' as -> _. auto.
          - cbn [fst] in M'. rewrite M in M'. injection M' as <- _. left. exact Bo. }
        destruct Bo as [Bo|(-> & Cp)]; [|right; left; split; [exact Cp|exact Ua]]. right. right.
        destruct (Sch sc h M Bo) as [Zi Zo].
        assert (A1 : a1 = pipe_var m :: args) by (unfold a1; rewrite Zi, Ep; apply insert_head).
        exists m. destruct (negb (out_idx sc =? -1)%Z && match next with [] => false | _ => true end) eqn:Q.
        - exists (insert_arg args (out_idx sc - 1) next). split; [reflexivity|]. split; [cbn [snd]; unfold a2; rewrite ?Q, A1; apply insert_tail, Zo|].
          intros a I. apply insert_in in I. destruct I as [I|I]; [auto|]. subst a. exact Un.
        - exists args. split; [reflexivity|]. split; [cbn [snd]; unfold a2; rewrite ?Q, A1; reflexivity|]. auto. }
      destruct segs as [|seg2 segs'].
      + cbn [build] in E. injection E as <-. exists [(name, a2)]. split; [reflexivity|]. intros Fn. inversion Fn; subst. apply (chain_cons i i); [auto|constructor].
      + apply (IH (S i) next final) in E; [|intros seg a I; apply (Us seg a); right; exact I|exact Uf|reflexivity].
        destruct E as (l & -> & Cl). exists ((name, a2) :: l). split; [rewrite <- app_assoc; reflexivity|].
        intros Fn. inversion Fn; subst. apply (chain_cons i i); auto.
  Qed.
End Pipe.

(** ** the optimiser stops *)
Section Stop.
  Variable V F : Type.
  Variable reg : registry V F.
  Variable is_one : str -> bool.
  Notation command := (str * list str)%type.
  Definition weight (c : command) : nat := if eqs (fst c) (lit "multiply") then 2 else 1.
  Definition size (l : list command) : nat := fold_right (fun c n => weight c + n) 0 l.

  Lemma rule_one_weight c : let '(c', ch) := rule_one V F reg is_one c in weight c' + (if ch then 1 else 0) <= weight c.
  Proof.
    unfold rule_one. destruct (eqs (fst c) (lit "multiply") && (3 <=? length (snd c)) && is_one (last (snd c) [])) eqn:E; [|lia].
    destruct (get_io V F reg c) as [i o]. unfold weight. apply Bool.andb_true_iff in E. destruct E as [E _]. apply Bool.andb_true_iff in E. destruct E as [E _].
    rewrite E. simpl. lia.
  Qed.
  Lemma update_in_name c v c' : update_in V F reg c v = Some c' -> fst c' = fst c.
  Proof.
    unfold update_in. destruct (is_copy c); [intros E; injection E as <-; reflexivity|].
    destruct (get_schema V F reg (fst c)) as [sc|]; [|discriminate]. destruct (negb _); [|discriminate].
    destruct (update_arg _ _ _ _); [|discriminate]. intros E. injection E as <-. reflexivity.
  Qed.
  Lemma update_out_name c v c' : update_out V F reg c v = Some c' -> fst c' = fst c.
  Proof.
    unfold update_out. destruct (is_copy c); [intros E; injection E as <-; reflexivity|].
    destruct (get_schema V F reg (fst c)) as [sc|]; [|discriminate]. destruct (negb _); [|discriminate].
    destruct (update_arg _ _ _ _); [|discriminate]. intros E. injection E as <-. reflexivity.
  Qed.
  Lemma weight_pos c : 1 <= weight c.
  Proof. unfold weight. destruct (eqs _ _); lia. Qed.
  Lemma pass_size n : forall rest c, length rest <= n ->
    size (fst (pass V F reg is_one rest c)) + (if snd (pass V F reg is_one rest c) then 1 else 0) <= size (c :: rest).
  Proof.
    induction n as [|n IH]; intros rest c Ln.
    { destruct rest; [|simpl in Ln; lia]. simpl. pose proof (rule_one_weight c) as W. destruct (rule_one V F reg is_one c) as [c' ch]. simpl. lia. }
    destruct rest as [|c2 rest].
    { simpl. pose proof (rule_one_weight c) as W. destruct (rule_one V F reg is_one c) as [c' ch]. simpl. lia. }
    cbn [pass]. pose proof (rule_one_weight c) as W. destruct (rule_one V F reg is_one c) as [c1 ch]. simpl in Ln.
    assert (Cont : forall x, x = (let '(l, ch') := pass V F reg is_one rest c2 in (c1 :: l, ch || ch')) ->
      size (fst x) + (if snd x then 1 else 0) <= size (c :: c2 :: rest)).
    { intros x ->. pose proof (IH rest c2 ltac:(lia)) as H. destruct (pass V F reg is_one rest c2) as [l ch']. cbn [fst snd size fold_right] in *.
      destruct ch, ch'; simpl orb; cbn [fst snd size fold_right] in *; lia. }
    assert (Less : forall c', weight c' <= weight c2 \/ weight c' <= weight c1 -> forall x, x = (let '(l, _) := pass V F reg is_one rest c' in (l, true)) ->
      size (fst x) + (if snd x then 1 else 0) <= size (c :: c2 :: rest)).
    { intros c' H' x ->. pose proof (IH rest c' ltac:(lia)) as H. pose proof (weight_pos c1). pose proof (weight_pos c2).
      destruct (pass V F reg is_one rest c') as [l ch']. cbn [fst snd size fold_right] in *. destruct ch; lia. }
    destruct (get_io V F reg c1) as [in1 out1]. destruct (get_io V F reg c2) as [in2 out2]. cbv zeta.
    destruct (match out1 with [] => false | _ => true end && eqs out1 in2); [|apply Cont; reflexivity].
    destruct (inverse_pair (fst c1) (fst c2)).
    - pose proof (weight_pos c1). pose proof (weight_pos c2). destruct rest as [|c3 rest].
      + cbn [fst snd size fold_right]. assert (Wc : weight (lit "copy", [in1; out2]) = 1) by reflexivity. rewrite ?Wc. lia.
      + assert (L3 : length rest <= n) by (simpl in Ln; lia). pose proof (IH rest c3 L3) as H3. destruct (pass V F reg is_one rest c3) as [l ch'].
        cbn [fst snd size fold_right] in *. assert (Wc : weight (lit "copy", [in1; out2]) = 1) by reflexivity. rewrite ?Wc. destruct ch, ch'; lia.
    - destruct (if eqs (fst c1) (lit "copy") && pipe_arg out1 then update_in V F reg c2 in1 else None) as [c2'|] eqn:U.
      + apply (Less c2'); [|reflexivity]. left. destruct (eqs (fst c1) (lit "copy") && pipe_arg out1); [|discriminate].
        unfold weight. rewrite (update_in_name _ _ _ U). lia.
      + clear U. destruct (if eqs (fst c2) (lit "copy") && pipe_arg in2 then update_out V F reg c1 out2 else None) as [c1'|] eqn:U; [|apply Cont; reflexivity].
        apply (Less c1'); [|reflexivity]. right. destruct (eqs (fst c2) (lit "copy") && pipe_arg in2); [|discriminate].
        unfold weight. rewrite (update_out_name _ _ _ U). lia.
  Qed.
  Lemma pass_length n : forall rest c, length rest <= n -> length (fst (pass V F reg is_one rest c)) <= S (length rest).
  Proof.
    induction n as [|n IH]; intros rest c Ln.
    { destruct rest; [|simpl in Ln; lia]. simpl. destruct (rule_one V F reg is_one c) as [c' ch]. simpl. lia. }
    destruct rest as [|c2 rest].
    { simpl. destruct (rule_one V F reg is_one c) as [c' ch]. simpl. lia. }
    cbn [pass]. destruct (rule_one V F reg is_one c) as [c1 ch]. simpl in Ln.
    assert (Cont : length (fst (let '(l, ch') := pass V F reg is_one rest c2 in (c1 :: l, ch || ch'))) <= S (length (c2 :: rest))).
    { pose proof (IH rest c2 ltac:(lia)) as H. destruct (pass V F reg is_one rest c2) as [l ch']. simpl in *. lia. }
    assert (Less : forall c', length (fst (let '(l, _) := pass V F reg is_one rest c' in (l, true))) <= S (length (c2 :: rest))).
    { intros c'. pose proof (IH rest c' ltac:(lia)) as H. destruct (pass V F reg is_one rest c') as [l ch']. simpl in *. lia. }
    destruct (get_io V F reg c1) as [in1 out1]. destruct (get_io V F reg c2) as [in2 out2]. cbv zeta.
    destruct (match out1 with [] => false | _ => true end && eqs out1 in2); [|exact Cont].
    destruct (inverse_pair (fst c1) (fst c2)).
    - destruct rest as [|c3 rest]; [simpl; lia|].
      assert (L3 : length rest <= n) by (simpl in Ln; lia). pose proof (IH rest c3 L3) as H3. destruct (pass V F reg is_one rest c3) as [l ch']. simpl in *. lia.
    - destruct (if eqs (fst c1) (lit "copy") && pipe_arg out1 then update_in V F reg c2 in1 else None); [apply Less|].
      destruct (if eqs (fst c2) (lit "copy") && pipe_arg in2 then update_out V F reg c1 out2 else None); [apply Less|exact Cont].
  Qed.
  Lemma optimize_stops fuel : forall l, size l < fuel -> exists l', optimize V F reg is_one fuel l = Some l'.
  Proof.
    induction fuel as [|n IH]; intros l H; [lia|]. simpl. destruct l as [|c l]; [exists []; reflexivity|]. simpl run_pass.
    pose proof (pass_size (length l) l c (le_n _)) as P. destruct (pass V F reg is_one l c) as [l' ch]. cbn [fst snd] in P.
    destruct ch; [|eauto]. apply IH. simpl in *. lia.
  Qed.
  Lemma size_bound l : size l <= 2 * length l.
  Proof. induction l as [|c l IH]; simpl; [lia|]. unfold weight. destruct (eqs _ _); lia. Qed.
End Stop.
