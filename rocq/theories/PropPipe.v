(** PropPipe.v - pipelines and the peephole optimiser: C62, C63. *)
From Coq Require Import Ascii String DecimalString.
From Verif Require Import Base CliModel CliProofs PipeProofs.
Open Scope nat_scope.

(** ** C62  The optimiser *)
(** the words of a line *)
Definition tokens (line : str) : list str := flat_map (fun s => words s []) (split_bar line []).
(** no variable of a pipe is left from an earlier line *)
Definition no_pipes {V F} (st : state V F) : Prop := forall m, var V F st (pname m) = None.
(** the same files, and the same variables of the user *)
Definition same_for_user {V F} (s s' : state V F) : Prop :=
  files V F s = files V F s' /\ forall n, starts_with (lit "__pipe_") n = false -> map_find n (vars V F s) = map_find n (vars V F s').

(** The optimiser stops, whatever the commands are, after at most two passes for each command and one more. *)
Theorem C62_terminates : forall (V F : Type) (reg : registry V F) is_one l,
  exists l', optimize V F reg is_one (2 * length l + 1) l = Some l' /\ length l' <= length l.
Proof.
  intros V F reg is_one l. destruct (optimize_stops V F reg is_one (2 * length l + 1) l) as (l' & E).
  - eapply Nat.le_lt_trans; [apply size_bound|]. unfold command. lia.
  - exists l'. split; [exact E|].
    assert (G : forall fuel l l', optimize V F reg is_one fuel l = Some l' -> length l' <= length l).
    { clear. induction fuel as [|fuel IH]; intros l l' E; [discriminate|]. cbn [optimize] in E.
      assert (P : length (fst (run_pass V F reg is_one l)) <= length l) by (destruct l; [simpl; lia|apply (pass_length V F reg is_one (length l)), le_n]).
      destruct (run_pass V F reg is_one l) as [m ch]. destruct ch; [apply IH in E; exact (Nat.le_trans _ _ _ E P)|]. injection E as <-. exact P. }
    apply (G _ _ _ E).
Qed.
Print Assumptions C62_terminates.

(** A line that the optimiser has changed does what it did, for the user.  Missing from C62: lines of which a command that the
    optimiser knows works on files ([nice] asks for variables), or has an argument too many, and sessions with variables left
    by earlier pipes; there it is false.  [well_behaved] says what the optimiser takes for granted of the commands: that
    multiplying by one, and dct2 with idct2, change nothing. *)
Theorem C62_same_effect_partial : forall (V F : Type) load_file (reg : registry V F) is_one G put line L st,
  well_behaved V F load_file reg is_one G put ->
  (forall name sc h, map_find name reg = Some (sc, h) -> usual sc) ->
  parse_line V F reg line = Run L -> Forall user_arg (tokens line) -> Forall (nice V F reg is_one) L -> no_pipes st ->
  exists st', run_line V F reg is_one line st = Some st' /\ same_for_user (run_pipeline V F reg L st) st'.
Proof.
  intros V F load_file reg is_one G put line L st WB US Pa Us Ni Np.
  destruct (C62_terminates V F reg is_one L) as (L' & E & _).
  exists (run_pipeline V F reg L' st). split; [unfold run_line; rewrite Pa, E; reflexivity|].
  assert (C : chain V F reg is_one 0 L).
  { unfold parse_line in Pa. set (segs := filter _ _) in Pa.
    assert (Hs : forall seg a, In seg segs -> In a seg -> user_arg a).
    { intros seg a I J. apply filter_In in I. destruct I as [I _]. apply in_map_iff in I. destruct I as (s & <- & I).
      apply (proj1 (Forall_forall _ _) Us). unfold tokens. apply in_flat_map. exists s. auto. }
    assert (Pa' : (let '(sg, final) := split_final segs in build V F reg sg 0 [] final []) = Run L) by (destruct segs; [discriminate|exact Pa]).
    destruct (split_final segs) as [sg final] eqn:Sf.
    assert (K : (forall seg a, In seg sg -> In a seg -> user_arg a) /\ user_arg final).
    { unfold split_final in Sf. destruct (rev segs) as [|[|v [|]] [|y t]] eqn:Er; try (injection Sf as <- <-; split; [exact Hs|apply user_nil]).
      assert (In1 : forall seg, In seg (y :: t) -> In seg segs) by (intros seg I; apply in_rev; rewrite Er; right; exact I).
      assert (In2 : In [v] segs) by (apply in_rev; rewrite Er; left; reflexivity).
      destruct (dollar v); injection Sf as <- <-; split; try exact Hs; try apply user_nil.
      - cbn [tl]. intros seg a I. apply Hs, In1. change (rev t ++ [y]) with (rev (y :: t)) in I. apply in_rev in I. exact I.
      - apply (Hs [v]); [exact In2|left; reflexivity]. }
    destruct K as [K1 K2].
    destruct (build_chain V F load_file (fun _ _ _ => None) reg is_one G put WB US sg 0 [] final [] L) as (l & -> & Hc);
      [intros seg a I J; apply (K1 seg); [exact I|destruct seg; [contradiction|right; exact J]]|exact K2|reflexivity|exact Pa'|].
    apply Hc. exact Ni. }
  destruct (optimize_ok V F load_file (fun _ _ _ => None) reg is_one G put WB _ _ _ E C) as [_ H]. apply H.
  repeat split; intros; apply Np.
Qed.
Print Assumptions C62_same_effect_partial.

(** ** C63  Pipelines *)
(** how a line is written: words with blanks between them, and a bar between the segments *)
Definition plain (a : str) : Prop := a <> [] /\ Forall (fun c => isspace c = false /\ c <> "|"%char) a.
Fixpoint write_words (l : list str) : str := match l with [] => [] | [a] => a | a :: l => a ++ " "%char :: write_words l end.
Fixpoint write_line (segs : list (list str)) : str :=
  match segs with [] => [] | [s] => write_words s | s :: segs => write_words s ++ lit " | " ++ write_line segs end.

Lemma words_word a : forall cur r, Forall (fun c => isspace c = false /\ c <> "|"%char) a -> words (a ++ r) cur = words r (cur ++ a).
Proof.
  induction a as [|c a IH]; intros cur r H; simpl; [rewrite app_nil_r; reflexivity|]. inversion H as [|? ? [E _] H']; subst. rewrite E, IH by assumption.
  rewrite <- app_assoc. reflexivity.
Qed.
Lemma words_write l : forall r, Forall plain l -> l <> [] -> words (write_words l ++ r) [] = match r with [] => l | _ => words (write_words l ++ r) [] end.
Proof.
  intros [|c r] H N; [|reflexivity]. rewrite app_nil_r. induction l as [|a l IH]; [congruence|]. inversion H as [|? ? [Na P] H']; subst.
  destruct l as [|b l].
  - simpl. rewrite <- (app_nil_r a) at 1. rewrite words_word by exact P. simpl. destruct a; [congruence|reflexivity].
  - cbn [write_words]. rewrite words_word by exact P. cbn [app words]. change (isspace " ") with true. cbv iota.
    destruct a as [|x a]; [congruence|]. f_equal. apply IH; [exact H'|discriminate].
Qed.
Lemma words_space l r : Forall plain l -> l <> [] -> words (write_words l ++ " "%char :: r) [] = l ++ words r [].
Proof.
  intros H N. induction l as [|a l IH]; [congruence|]. inversion H as [|? ? [Na P] H']; subst. destruct l as [|b l].
  - cbn [write_words]. rewrite words_word by exact P. cbn [app words]. change (isspace " ") with true. cbv iota. destruct a; [congruence|reflexivity].
  - cbn [write_words]. rewrite <- app_assoc, words_word by exact P. cbn [app words]. change (isspace " ") with true. cbv iota.
    destruct a as [|x a]; [congruence|]. f_equal. apply IH; [exact H'|discriminate].
Qed.
Lemma bar_skip a : forall cur r, Forall (fun c => c <> "|"%char) a -> split_bar (a ++ r) cur = split_bar r (cur ++ a).
Proof.
  induction a as [|c a IH]; intros cur r H; simpl; [rewrite app_nil_r; reflexivity|]. inversion H; subst.
  destruct (Ascii.eqb_spec c "|"%char); [contradiction|]. rewrite IH by assumption. rewrite <- app_assoc. reflexivity.
Qed.
Lemma write_no_bar l : Forall plain l -> Forall (fun c => c <> "|"%char) (write_words l).
Proof.
  intros H. assert (W : forall a, plain a -> Forall (fun c => c <> "|"%char) a) by (intros a [_ P]; eapply Forall_impl; [|exact P]; intros c [_ Q]; exact Q).
  induction l as [|a l IH]; [constructor|]. inversion H; subst. destruct l as [|b l]; [apply W; assumption|].
  cbn [write_words]. apply Forall_app. split; [apply W; assumption|]. constructor; [discriminate|apply IH; assumption].
Qed.
Lemma write_nonempty l : Forall plain l -> l <> [] -> write_words l <> [].
Proof. intros H N. destruct l as [|a l]; [congruence|]. inversion H as [|? ? [Na _] _]; subst. destruct l, a; simpl; congruence. Qed.
Lemma read_line segs : Forall (fun seg => seg <> [] /\ Forall plain seg) segs ->
  map (fun s => words s []) (split_bar (write_line segs) []) = segs
  /\ map (fun s => words s []) (split_bar (write_line segs) [" "%char]) = match segs with [] => [[]] | _ => segs end.
Proof.
  induction segs as [|seg segs IH]; intros H; [split; reflexivity|]. inversion H as [|? ? [N P] H']; subst.
  assert (Wn : words (write_words seg) [] = seg).
  { assert (W := words_write seg [] P N). cbv iota in W. rewrite app_nil_r in W. exact W. }
  destruct segs as [|s2 segs].
  - cbn [write_line]. assert (B : forall cur, split_bar (write_words seg) cur = split_bar [] (cur ++ write_words seg)).
    { intros cur. rewrite <- (app_nil_r (write_words seg)) at 1. apply bar_skip, write_no_bar, P. }
    rewrite !B. cbn [split_bar app]. split; [|cbn [map words]; change (isspace " ") with true; cbv iota; rewrite Wn; reflexivity].
    assert (Z := write_nonempty seg P N). destruct (write_words seg) eqn:E; [congruence|]. cbn [map]. rewrite Wn. reflexivity.
  - cbn [write_line]. destruct (IH H') as [_ I2]. cbn [write_line] in I2.
    assert (B : forall cur, split_bar (write_words seg ++ lit " | " ++ write_line (s2 :: segs)) cur
      = (cur ++ write_words seg ++ [" "%char]) :: split_bar (write_line (s2 :: segs)) [" "%char]).
    { intros cur. rewrite bar_skip by (apply write_no_bar, P). cbn. rewrite <- app_assoc. reflexivity. }
    cbn [write_line] in B. rewrite !B. cbn [map app]. rewrite I2. split; f_equal.
    + rewrite words_space by assumption. simpl. rewrite app_nil_r. reflexivity.
    + cbn [words]. change (isspace " ") with true. cbv iota. rewrite words_space by assumption. simpl. rewrite app_nil_r. reflexivity.
Qed.

(** Reading a line gives back the words that it was written from. *)
Theorem C63_words : forall segs, Forall (fun seg => seg <> [] /\ Forall plain seg) segs ->
  map (fun s => words s []) (split_bar (write_line segs) []) = segs.
Proof. intros segs H. apply read_line, H. Qed.
Print Assumptions C63_words.

(** a stage: a command made by [make_meta_transform_handler], and its other arguments *)
Record stage (V : Type) := mkStage {
  st_name : str;
  st_extra : nat;
  st_setup : str -> list str -> option (any V -> option (any V));
  st_args : list str }.
Arguments st_name {V}. Arguments st_extra {V}. Arguments st_setup {V}. Arguments st_args {V}.
(** what it makes of a value *)
Definition stage_value {V} (g : stage V) (v : any V) : option (any V) :=
  if length (st_args g) <? st_extra g then None
  else match st_setup g [] (st_args g) with Some core => core v | None => None end.
Definition through {V} (gs : list (stage V)) (r : option (any V)) : option (any V) :=
  fold_left (fun r g => match r with Some v => stage_value g v | None => None end) gs r.
Definition user_word (a : str) : Prop := plain a /\ is_policy a = false /\ user_arg a.
Definition stage_ok {V F} load_file save_file (reg : registry V F) (g : stage V) : Prop :=
  map_find (st_name g) reg = Some (TransformerSchema, transform_handler V F load_file save_file (st_extra g) (st_setup g))
  /\ st_name g <> lit "exit" /\ st_name g <> lit "quit" /\ plain (st_name g) /\ Forall user_word (st_args g).
(** the value an input stands for: a variable, or a file *)
Inductive input_value {V F} (load_file : F -> str -> option (any V)) (st : state V F) : str -> option (any V) -> Prop :=
| from_variable s : input_value load_file st ("$"%char :: s) (map_find (sanitize s) (vars V F st))
| from_file a : dollar a = false -> dollar (sanitize a) = false -> input_value load_file st a (load_file (files V F st) (sanitize a)).
Definition pipeline {V} (g : stage V) (gs : list (stage V)) (input out : str) : list (list str) :=
  (st_name g :: input :: st_args g) :: map (fun g => st_name g :: st_args g) gs ++ [[out]].

Lemma insert_second a args v : insert_arg (a :: args) 1 v = a :: v :: args.
Proof. unfold insert_arg. cbv zeta. cbn [length]. replace (Z.min 1 (Z.of_nat (S (length args)))) with 1%Z by lia. reflexivity. Qed.
Lemma insert_first args v : insert_arg args 0 v = v :: args.
Proof. unfold insert_arg. cbv zeta. replace (Z.min 0 (Z.of_nat (length args))) with 0%Z by lia. reflexivity. Qed.

Section Run.
  Variable V F : Type.
  Variable load_file : F -> str -> option (any V).
  Variable save_file : F -> str -> any V -> option F.
  Variable reg : registry V F.
  Notation var := (var V F).
  Implicit Types g : stage V.

  (** the commands of a pipeline *)
  Definition next_arg (i : nat) (gs : list (stage V)) (final : str) : str := match gs with [] => final | _ => pipe_var i end.
  Fixpoint commands (i : nat) (prev : str) (gs : list (stage V)) (final : str) : list command :=
    match gs with
    | [] => []
    | g :: gs => (st_name g, prev :: next_arg i gs final :: st_args g) :: commands (S i) (next_arg i gs final) gs final
    end.
  Lemma next_nonempty i gs (final : str) : final <> [] -> match next_arg i gs final with [] => false | _ => true end = true.
  Proof. destruct gs; [destruct final; [congruence|reflexivity]|reflexivity]. Qed.
  Lemma build_stages gs : forall i (prev final : str) acc, Forall (stage_ok load_file save_file reg) gs -> prev <> [] -> final <> [] ->
    build V F reg (map (fun g => st_name g :: st_args g) gs) i prev final acc = Run (acc ++ commands i prev gs final).
  Proof.
    induction gs as [|g gs IH]; intros i prev final acc H Np Nf; [simpl; rewrite app_nil_r; reflexivity|].
    inversion H as [|? ? (M & Ne & Nq & _) H']; subst. cbn [map build].
    destruct (eqs_spec (st_name g) (lit "exit")); [contradiction|]. destruct (eqs_spec (st_name g) (lit "quit")); [contradiction|]. cbn [orb].
    unfold get_schema. rewrite M. cbn [option_map fst]. cbv zeta.
    set (nx := match map (fun g0 : stage V => st_name g0 :: st_args g0) gs with [] => final | _ :: _ => pipe_var i end).
    assert (E : nx = next_arg i gs final) by (unfold nx; destruct gs; reflexivity). clearbody nx. subst nx.
    change (in_idx TransformerSchema) with 0%Z. change (out_idx TransformerSchema) with 1%Z.
    replace (match prev with [] => false | _ => true end) with true by (destruct prev; [congruence|reflexivity]).
    rewrite (next_nonempty i gs final Nf). cbn [Z.eqb negb andb]. rewrite insert_first, insert_second.
    rewrite IH; [|assumption| |assumption].
    - rewrite <- app_assoc. reflexivity.
    - intros Q. assert (W := next_nonempty i gs final Nf). rewrite Q in W. discriminate.
  Qed.

  Lemma exec_stage g a o st : stage_ok load_file save_file reg g -> is_policy a = false -> dollar o = true ->
    execute V F reg (st_name g) (a :: o :: st_args g) st
    = match load_arg V F load_file st a with
      | Some v => match stage_value g v with Some w => mkState V F (ws_store V (tl o) w (vars V F st)) (files V F st) | None => st end
      | None => st
      end.
  Proof.
    intros (M & _ & _ & _ & Ua) Pa Do. unfold execute. rewrite M. unfold transform_handler.
    assert (Po := policy_not_dollar o Do).
    assert (Ex : extract_policy (st_args g) = []).
    { clear -Ua. induction Ua as [|x l (_ & P & _) _ IH]; [reflexivity|]. cbn [extract_policy]. rewrite P. exact IH. }
    assert (Fl : args_filter (st_args g) = st_args g).
    { clear -Ua. unfold args_filter. induction Ua as [|x l (_ & P & _) _ IH]; [reflexivity|]. cbn [filter]. rewrite P. cbn [negb]. rewrite IH. reflexivity. }
    unfold args_filter in *. cbn [extract_policy filter]. rewrite Pa, Po. cbn [negb]. rewrite Ex, Fl.
    unfold stage_value. destruct (length (st_args g) <? st_extra g); [destruct (load_arg _ _ _ _ _); reflexivity|].
    destruct (st_setup g [] (st_args g)) as [core|]; [|destruct (load_arg _ _ _ _ _); reflexivity].
    destruct (load_arg V F load_file st a) as [v|]; [|reflexivity]. destruct (core v); [|reflexivity]. unfold save_arg. rewrite Do. reflexivity.
  Qed.

  Lemma run_stages gs : forall i a r st final,
    Forall (stage_ok load_file save_file reg) gs -> gs <> [] -> is_policy a = false -> dollar final = true -> user_arg final ->
    load_arg V F load_file st a = r ->
    (through gs r = None -> forall m, i <= m -> var st (pname m) = None) ->
    let st' := run_pipeline V F reg (commands i a gs final) st in
    files V F st' = files V F st
    /\ forall n, pipe_name n = false ->
        var st' n = match through gs r with Some w => if eqs n (sanitize (tl final)) then Some w else var st n | None => var st n end.
  Proof.
    induction gs as [|g gs IH]; intros i a r st final H Ne Pa Df Uf Lr Fr; [congruence|].
    inversion H as [|? ? Hg H']; subst. cbv zeta. cbn [commands]. unfold run_pipeline. cbn [fold_left fst snd].
    fold (run_pipeline V F reg (commands (S i) (next_arg i gs final) gs final)).
    destruct gs as [|g2 gs].
    - cbn [next_arg commands run_pipeline fold_left]. rewrite (exec_stage g a final st Hg Pa Df). cbn [through fold_left].
      destruct (load_arg V F load_file st a) as [v|]; [|split; auto]. destruct (stage_value g v) as [w|]; [|split; auto].
      split; [reflexivity|]. intros n _. apply var_store.
    - cbn [next_arg]. rewrite (exec_stage g a (pipe_var i) st Hg Pa (dollar_pipe i)).
      set (r' := match load_arg V F load_file st a with Some v => stage_value g v | None => None end).
      assert (Th : through (g :: g2 :: gs) (load_arg V F load_file st a) = through (g2 :: gs) r') by reflexivity.
      rewrite Th in *.
      assert (Dn : (exists w, r' = Some w) \/ r' = None) by (destruct r'; eauto).
      destruct Dn as [(w & Ew)|En].
      + replace (match load_arg V F load_file st a with Some v => match stage_value g v with Some w => mkState V F (ws_store V (tl (pipe_var i)) w (vars V F st)) (files V F st) | None => st end | None => st end)
          with (mkState V F (ws_store V (tl (pipe_var i)) w (vars V F st)) (files V F st)).
        2: { unfold r' in Ew. destruct (load_arg V F load_file st a) as [v|]; [|discriminate]. rewrite Ew. reflexivity. }
        set (s1 := mkState V F (ws_store V (tl (pipe_var i)) w (vars V F st)) (files V F st)).
        assert (S1 : forall n, var s1 n = if eqs n (pname i) then Some w else var st n).
        { intros n. unfold s1. rewrite var_store. rewrite pipe_var_pname. cbn [tl]. rewrite pname_sanitize. reflexivity. }
        destruct (IH (S i) (pipe_var i) r' s1 final H') as [A B]; [discriminate|apply policy_not_dollar, dollar_pipe|exact Df|exact Uf| | |].
        * rewrite load_pipe, S1, eqs_refl. symmetry. exact Ew.
        * intros Q m L. rewrite S1. destruct (eqs_spec (pname m) (pname i)) as [E|_]; [apply pname_inj in E; lia|]. apply (Fr Q). lia.
        * split; [exact A|]. intros n U. etransitivity; [apply (B n U)|]. rewrite S1.
          destruct (eqs_spec n (pname i)) as [->|_]; [rewrite pname_pipe in U; discriminate|]. reflexivity.
      + replace (match load_arg V F load_file st a with Some v => match stage_value g v with Some w => mkState V F (ws_store V (tl (pipe_var i)) w (vars V F st)) (files V F st) | None => st end | None => st end)
          with st.
        2: { unfold r' in En. destruct (load_arg V F load_file st a) as [v|]; [|reflexivity]. rewrite En. reflexivity. }
        assert (Nn : through (g2 :: gs) r' = None).
        { rewrite En. clear. unfold through. generalize (g2 :: gs). intros l. induction l; [reflexivity|exact IHl]. }
        destruct (IH (S i) (pipe_var i) r' st final H') as [A B]; [discriminate|apply policy_not_dollar, dollar_pipe|exact Df|exact Uf| | |].
        * rewrite load_pipe, En. apply (Fr Nn). lia.
        * intros Q m L. apply (Fr Q). lia.
        * split; [exact A|exact B].
  Qed.
End Run.

Lemma parse_pipeline {V F} load_file save_file (reg : registry V F) g gs input out :
  Forall (stage_ok load_file save_file reg) (g :: gs) -> user_word input -> user_word out -> dollar out = true ->
  parse_line V F reg (write_line (pipeline g gs input out)) = Run (commands V 0 input (g :: gs) out).
Proof.
  intros H (Pi & _ & _) (Po & _ & _) Do.
  inversion H as [|? ? Hg H']; subst. destruct Hg as (M & Ne & Nq & Pn & Ua).
  assert (W : forall l, Forall user_word l -> Forall plain l) by (intros l Q; eapply Forall_impl; [|exact Q]; intros x [P _]; exact P).
  unfold parse_line. rewrite C63_words.
  2: { unfold pipeline. constructor; [split; [discriminate|]; constructor; [exact Pn|]; constructor; [exact Pi|apply W, Ua]|].
       apply Forall_app. split; [|constructor; [split; [discriminate|repeat constructor; exact Po || apply Po]|constructor]].
       apply Forall_forall. intros seg I. apply in_map_iff in I. destruct I as (x & <- & I). eapply Forall_forall in H'; [|exact I].
       destruct H' as (_ & _ & _ & P & U). split; [discriminate|]. constructor; [exact P|apply W, U]. }
  assert (Fi : filter (fun t : list str => match t with [] => false | _ => true end) (pipeline g gs input out) = pipeline g gs input out).
  { unfold pipeline. cbn [filter]. f_equal. rewrite filter_app. cbn [filter]. f_equal. clear. induction gs as [|x l IH]; [reflexivity|]. cbn [map filter]. f_equal. exact IH. }
  rewrite Fi. assert (Sf : split_final (pipeline g gs input out) = ((st_name g :: input :: st_args g) :: map (fun g => st_name g :: st_args g) gs, out)).
  { unfold pipeline, split_final. rewrite app_comm_cons, rev_app_distr. cbn [rev app tl].
    destruct (rev (map (fun g0 => st_name g0 :: st_args g0) gs) ++ [st_name g :: input :: st_args g]) as [|y t] eqn:E.
    - destruct (rev _); discriminate.
    - rewrite Do. f_equal. rewrite <- E, rev_app_distr, rev_involutive. reflexivity. }
  rewrite Sf. unfold pipeline at 1. cbn [app]. cbn [build].
  destruct (eqs_spec (st_name g) (lit "exit")); [contradiction|]. destruct (eqs_spec (st_name g) (lit "quit")); [contradiction|]. cbn [orb].
  unfold get_schema. rewrite M. cbn [option_map fst]. cbv zeta.
  set (nx := match map (fun g0 : stage V => st_name g0 :: st_args g0) gs with [] => out | _ :: _ => pipe_var 0 end).
  assert (E : nx = next_arg V 0 gs out) by (unfold nx; destruct gs; reflexivity). clearbody nx. subst nx.
  assert (No := dollar_nonempty out Do).
  change (in_idx TransformerSchema) with 0%Z. change (out_idx TransformerSchema) with 1%Z.
  rewrite (next_nonempty V 0 gs out No). cbn [Z.eqb negb andb]. rewrite insert_second. cbn [app].
  rewrite (build_stages V F load_file save_file reg gs 1 (next_arg V 0 gs out) out); [reflexivity|exact H'| |exact No].
  intros Q. assert (X := next_nonempty V 0 gs out No). rewrite Q in X. discriminate.
Qed.

(** A pipeline of transformations computes their composition: the last variable gets what the stages make of the input, one
    after the other, and the user's other variables and the files stay as they are.  When a stage fails, nothing changes;
    for that no variable may be left from earlier pipes.  Missing from C63: stages of other kinds, policy words, and the
    refuted cases below. *)
Theorem C63_composition_partial : forall (V F : Type) load_file save_file (reg : registry V F) g gs input out st r,
  Forall (stage_ok load_file save_file reg) (g :: gs) -> user_word input -> user_word ("$"%char :: out) -> input_value load_file st input r ->
  (through (g :: gs) r = None -> no_pipes st) ->
  exists L, parse_line V F reg (write_line (pipeline g gs input ("$"%char :: out))) = Run L
  /\ let st' := run_pipeline V F reg L st in
     files V F st' = files V F st
     /\ forall n, starts_with (lit "__pipe_") n = false ->
         map_find n (vars V F st') = match through (g :: gs) r with
                                     | Some w => if eqs n (sanitize out) then Some w else map_find n (vars V F st)
                                     | None => map_find n (vars V F st)
                                     end.
Proof.
  intros V F load_file save_file reg g gs input out st r H Ui Uo Iv Np.
  exists (commands V 0 input (g :: gs) ("$"%char :: out)). split; [apply (parse_pipeline load_file save_file); auto|].
  apply (run_stages V F load_file save_file reg (g :: gs) 0 input r st ("$"%char :: out)); auto.
  - discriminate.
  - apply Ui.
  - apply Uo.
  - destruct Iv as [s|a D Ds]; unfold load_arg; [reflexivity|]. rewrite D. cbv zeta. rewrite Ds. reflexivity.
  - intros Q m _. apply (Np Q).
Qed.
Print Assumptions C63_composition_partial.

Lemma tokens_write segs : Forall (fun seg => seg <> [] /\ Forall plain seg) segs -> tokens (write_line segs) = concat segs.
Proof. intros H. unfold tokens. rewrite flat_map_concat_map, C63_words by exact H. reflexivity. Qed.

(** The same with the optimiser, which every line goes through. *)
Theorem C63_line_partial : forall (V F : Type) load_file save_file (reg : registry V F) is_one G put g gs input out st r L,
  well_behaved V F load_file reg is_one G put ->
  (forall name sc h, map_find name reg = Some (sc, h) -> usual sc) ->
  Forall (stage_ok load_file save_file reg) (g :: gs) -> user_word input -> user_word ("$"%char :: out) -> input_value load_file st input r ->
  no_pipes st ->
  let line := write_line (pipeline g gs input ("$"%char :: out)) in
  Forall user_arg (tokens line) -> parse_line V F reg line = Run L -> Forall (nice V F reg is_one) L ->
  exists st', run_line V F reg is_one line st = Some st'
  /\ files V F st' = files V F st
  /\ forall n, starts_with (lit "__pipe_") n = false ->
      map_find n (vars V F st') = match through (g :: gs) r with
                                  | Some w => if eqs n (sanitize out) then Some w else map_find n (vars V F st)
                                  | None => map_find n (vars V F st)
                                  end.
Proof.
  intros V F load_file save_file reg is_one G put g gs input out st r L WB US H Ui Uo Iv Np line Ut Pa Ni.
  destruct (C62_same_effect_partial V F load_file reg is_one G put line L st WB US Pa Ut Ni Np) as (st' & E & Sf & Sv).
  destruct (C63_composition_partial V F load_file save_file reg g gs input out st r H Ui Uo Iv (fun _ => Np)) as (L' & Pa' & Rf & Rv).
  fold line in Pa'. rewrite Pa in Pa'. injection Pa' as <-.
  exists st'. split; [exact E|]. split; [rewrite <- Sf; exact Rf|]. intros n U. rewrite <- (Sv n U). apply Rv, U.
Qed.
Print Assumptions C63_line_partial.

(** *** a small program *)
(** values are integers; dct2 adds one and idct2 takes it away; files are kept in a map *)
Definition toy_files := list (str * any Z).
Definition toy_load (f : toy_files) (a : str) : option (any Z) := map_find a f.
Definition toy_save (f : toy_files) (a : str) (v : any Z) : option toy_files := Some (map_set a v f).
Definition toy_one (a : str) : bool := eqs (sanitize a) (lit "1.0").
Definition toy_add (k : Z) : str -> list str -> option (any Z -> option (any Z)) := fun _ _ => Some (fun v => Some (fst v, (snd v + k)%Z)).
Definition toy_times (a : str) (v : any Z) : option (any Z) :=
  if toy_one a then Some v else if eqs a (lit "2") then Some (fst v, (2 * snd v)%Z) else None.
Definition toy_mult : str -> list str -> option (any Z -> option (any Z)) := fun _ rest => Some (toy_times (nth 0 rest [])).
Notation toy_tr := (transform_handler Z toy_files toy_load toy_save).
Definition toy_reg : registry Z toy_files :=
  [(lit "copy", (IndependentSchema, copy_handler Z toy_files)); (lit "dct2", (TransformerSchema, toy_tr 0 (toy_add 1)));
   (lit "idct2", (TransformerSchema, toy_tr 0 (toy_add (-1)))); (lit "info", (TerminatorSchema, fun _ st => st));
   (lit "multiply", (TransformerSchema, toy_tr 1 toy_mult))].
Definition toy_G (name : str) (p args : list str) (st : state Z toy_files) (v : any Z) : option (any Z) :=
  if eqs name (lit "dct2") then Some (fst v, (snd v + 1)%Z)
  else if eqs name (lit "idct2") then Some (fst v, (snd v + -1)%Z)
  else toy_times (nth 2 args []) v.
Definition toy_put (name : str) : toy_files -> str -> any Z -> toy_files := put_file Z toy_files toy_save.
Notation toy_state := (mkState Z toy_files).
Notation toy_line l st := (run_line Z toy_files toy_reg toy_one (lit l) st).
(** the line as it is written, not optimised *)
Definition toy_direct (l : string) (st : state Z toy_files) : option (state Z toy_files) :=
  match parse_line Z toy_files toy_reg (lit l) with Run L => Some (run_pipeline Z toy_files toy_reg L st) | _ => None end.

Lemma routed_ext {V F} load_file sc h G G' put : routed V F load_file sc h G put ->
  (forall p args s v, Z.to_nat (in_idx sc) < length args -> Z.to_nat (out_idx sc) < length args -> G p args s v = G' p args s v) ->
  (forall p args s s' v, G' p args s v = G' p args s' v) -> routed V F load_file sc h G' put.
Proof.
  intros [A B] E E'. split; [intros; apply E'|]. intros args st. rewrite B. cbv zeta.
  destruct ((Z.to_nat (in_idx sc) <? length (args_filter args)) && (Z.to_nat (out_idx sc) <? length (args_filter args))) eqn:Q; [|reflexivity].
  destruct (load_arg V F load_file st _) as [v|]; [|reflexivity]. rewrite E; [reflexivity| |]; unfold blank; rewrite !list_upd_length; lia.
Qed.
Lemma toy_well : well_behaved Z toy_files toy_load toy_reg toy_one toy_G toy_put.
Proof.
  split.
  - intros name sc h M. unfold toy_reg in M. cbn [map_find] in M.
    destruct (eqs_spec name (lit "copy")) as [->|N1]; [injection M as <- <-; reflexivity|].
    destruct (eqs_spec name (lit "dct2")) as [->|N2].
    { injection M as <- <-. split; [discriminate|]. split; [discriminate|]. split; [discriminate|].
      eapply routed_ext; [apply transform_routed| |reflexivity]. intros p args s v L L'. change (Z.to_nat (out_idx TransformerSchema)) with 1 in L'.
      destruct args as [|a [|b args]]; simpl in L, L'; try lia; reflexivity. }
    destruct (eqs_spec name (lit "idct2")) as [->|N3].
    { injection M as <- <-. split; [discriminate|]. split; [discriminate|]. split; [discriminate|].
      eapply routed_ext; [apply transform_routed| |reflexivity]. intros p args s v L L'. change (Z.to_nat (out_idx TransformerSchema)) with 1 in L'.
      destruct args as [|a [|b args]]; simpl in L, L'; try lia; reflexivity. }
    destruct (eqs_spec name (lit "info")) as [->|N4].
    { injection M as <- <-. intros args s s' A. split; [exact A|]. intros n _ E. exact E. }
    destruct (eqs_spec name (lit "multiply")) as [->|N5]; [|discriminate].
    injection M as <- <-. split; [discriminate|]. split; [discriminate|]. split; [discriminate|].
    eapply routed_ext; [apply transform_routed| |reflexivity]. intros p args s v L L'. change (Z.to_nat (out_idx TransformerSchema)) with 1 in L'.
    change (toy_G (lit "multiply") p args s v) with (toy_times (nth 2 args []) v).
    destruct args as [|a [|b [|c args]]]; simpl in L, L'; try lia; reflexivity.
  - eexists. reflexivity.
  - intros sc h M. injection M as <- _. reflexivity.
  - intros a E. unfold toy_one in E. apply eqs_eq in E. destruct (dollar a) eqn:D; [|reflexivity]. exfalso.
    destruct a as [|c a]; [discriminate|]. apply dollar_cons in D. subst c.
    destruct (sanitize_spec ("$"%char :: a)) as (pre & post & Es & Fp & _ & _). rewrite E in Es.
    destruct pre as [|x pre]; [discriminate|]. injection Es as <- _. inversion Fp; subst. discriminate.
  - intros p args s v E. change (toy_times (nth 2 args []) v = Some v). unfold toy_times. rewrite E. reflexivity.
  - intros p a s v p' a' s'. exists (fst v, (snd v + 1)%Z). split; [reflexivity|]. change (Some (fst v, (snd v + 1 + -1)%Z) = Some v).
    destruct v as [t z]. cbn [fst snd]. replace (z + 1 + -1)%Z with z by lia. reflexivity.
  - intros p a s v p' a' s'. exists (fst v, (snd v + -1)%Z). split; [reflexivity|]. change (Some (fst v, (snd v + -1 + 1)%Z) = Some v).
    destruct v as [t z]. cbn [fst snd]. replace (z + -1 + 1)%Z with z by lia. reflexivity.
Qed.
Lemma toy_usual : forall name sc h, map_find name toy_reg = Some (sc, h) -> usual sc.
Proof.
  intros name sc h M. unfold toy_reg in M. cbn [map_find] in M. unfold usual.
  repeat match type of M with (if ?b then _ else _) = _ => destruct b; [injection M as <- <-; cbn; lia|] end. discriminate.
Qed.

Lemma user_args l : forallb (fun a => match var_of a with Some n => negb (pipe_name n) | None => true end) l = true -> Forall user_arg l.
Proof.
  intros H. apply Forall_forall. intros a I. eapply forallb_forall in H; [|exact I]. unfold user_arg.
  destruct (var_of a); [destruct (pipe_name s); [discriminate|reflexivity]|exact Logic.I].
Qed.
(** multiplying by one disappears, as do the two transforms; what is left is one multiplication *)
Definition case_line : string := "multiply $a 1.0 | dct2 | idct2 | multiply 2 | $b".
Definition case_state : state Z toy_files := toy_state [(lit "a", (0, 5%Z)); (lit "c", (0, 9%Z))] [].
Example C62_case : exists L,
  parse_line Z toy_files toy_reg (lit case_line) = Run L /\ length L = 4
  /\ optimize Z toy_files toy_reg toy_one 9 L = Some [(lit "multiply", [lit "$a"; lit "$b"; lit "2"])]
  /\ Forall user_arg (tokens (lit case_line)) /\ Forall (nice Z toy_files toy_reg toy_one) L /\ no_pipes case_state
  /\ option_map (fun s => map_find (lit "b") (vars Z toy_files s)) (toy_line case_line case_state) = Some (Some (0, 10%Z)).
Proof.
  eexists. split; [vm_compute; reflexivity|]. split; [reflexivity|]. split; [vm_compute; reflexivity|].
  split; [apply user_args; vm_compute; reflexivity|]. split.
  - repeat apply Forall_cons; try apply Forall_nil; vm_compute; intuition discriminate.
  - split; [|reflexivity]. intros m. unfold var. cbn [vars case_state map_find]. reflexivity.
Qed.

Notation toy_var n s := (map_find (lit n) (vars Z toy_files s)).

(** Multiplying a file by one becomes a copy, which does not read files: the variable does not get its value. *)
Theorem C62_file_input_refuted : exists line st s s', toy_direct line st = Some s /\ toy_line line st = Some s' /\ no_pipes st
  /\ toy_var "x" s = Some (0, 5%Z) /\ toy_var "x" s' = None.
Proof.
  exists "multiply in.bmp 1.0 | $x"%string, (toy_state [] [(lit "in.bmp", (0, 5%Z))]). do 2 eexists.
  split; [vm_compute; reflexivity|]. split; [vm_compute; reflexivity|]. split; [intros m; reflexivity|]. split; reflexivity.
Qed.
Print Assumptions C62_file_input_refuted.
(** The transforms that cancel become a copy, which does not write files: the file is not written. *)
Theorem C62_file_output_refuted : exists line st s s', toy_direct line st = Some s /\ toy_line line st = Some s' /\ no_pipes st
  /\ toy_load (files Z toy_files s) (lit "out.bmp") = Some (0, 5%Z) /\ toy_load (files Z toy_files s') (lit "out.bmp") = None.
Proof.
  exists "dct2 $a | idct2 out.bmp"%string, (toy_state [(lit "a", (0, 5%Z))] []). do 2 eexists.
  split; [vm_compute; reflexivity|]. split; [vm_compute; reflexivity|]. split; [intros m; reflexivity|]. split; reflexivity.
Qed.
Print Assumptions C62_file_output_refuted.
(** A copy to a file does nothing; when its input is the variable of the pipe the optimiser lets the command before it write the
    file. *)
Theorem C62_writes_file_refuted : exists line st s s', toy_direct line st = Some s /\ toy_line line st = Some s' /\ no_pipes st
  /\ toy_load (files Z toy_files s) (lit "out.bmp") = None /\ toy_load (files Z toy_files s') (lit "out.bmp") = Some (0, 6%Z).
Proof.
  exists "dct2 $a | copy $__pipe_0 out.bmp"%string, (toy_state [(lit "a", (0, 5%Z))] []). do 2 eexists.
  split; [vm_compute; reflexivity|]. split; [vm_compute; reflexivity|]. split; [intros m; reflexivity|]. split; reflexivity.
Qed.
Print Assumptions C62_writes_file_refuted.
(** The optimiser looks at the last argument, the command at the third: a multiplication by two is taken for one by one. *)
Theorem C62_last_argument_refuted : exists line st s s', toy_direct line st = Some s /\ toy_line line st = Some s' /\ no_pipes st
  /\ toy_var "b" s = Some (0, 10%Z) /\ toy_var "b" s' = Some (0, 5%Z).
Proof.
  exists "multiply $a $b 2 1.0"%string, (toy_state [(lit "a", (0, 5%Z))] []). do 2 eexists.
  split; [vm_compute; reflexivity|]. split; [vm_compute; reflexivity|]. split; [intros m; reflexivity|]. split; reflexivity.
Qed.
Print Assumptions C62_last_argument_refuted.
(** After an earlier pipeline, a failing one gives something else when it is optimised. *)
Theorem C62_stale_refuted : exists before line st0 st s s', toy_line before st0 = Some st /\ no_pipes st0
  /\ toy_direct line st = Some s /\ toy_line line st = Some s'
  /\ toy_var "b" s = Some (0, 6%Z) /\ toy_var "b" s' = None.
Proof.
  exists "dct2 $a | multiply 2 | $c"%string, "dct2 $m | multiply 1.0 | $b"%string, (toy_state [(lit "a", (0, 5%Z))] []). do 3 eexists.
  split; [vm_compute; reflexivity|]. split; [intros m; reflexivity|]. split; [vm_compute; reflexivity|]. split; [vm_compute; reflexivity|]. split; reflexivity.
Qed.
Print Assumptions C62_stale_refuted.
(** When the transforms refuse a type of image, the copy does not. *)
Theorem C62_types_refuted : exists (reg : registry Z toy_files) line st L s s',
  parse_line Z toy_files reg line = Run L /\ run_pipeline Z toy_files reg L st = s /\ run_line Z toy_files reg toy_one line st = Some s' /\ no_pipes st
  /\ toy_var "b" s = None /\ toy_var "b" s' = Some (1, 5%Z).
Proof.
  set (only0 k := fun (_ : str) (_ : list str) => Some (fun v : any Z => if fst v =? 0 then Some (fst v, (snd v + k)%Z) else None)).
  exists [(lit "copy", (IndependentSchema, copy_handler Z toy_files)); (lit "dct2", (TransformerSchema, toy_tr 0 (only0 1%Z)));
    (lit "idct2", (TransformerSchema, toy_tr 0 (only0 (-1)%Z)))], (lit "dct2 $a | idct2 | $b"), (toy_state [(lit "a", (1, 5%Z))] []). do 3 eexists.
  split; [vm_compute; reflexivity|]. split; [vm_compute; reflexivity|]. split; [vm_compute; reflexivity|]. split; [intros m; reflexivity|]. split; reflexivity.
Qed.
Print Assumptions C62_types_refuted.

(** two stages and a file *)
Example C63_case :
  let g := mkStage Z (lit "dct2") 0 (toy_add 1) [] in
  let gs := [mkStage Z (lit "multiply") 1 toy_mult [lit "2"]] in
  let st := toy_state [] [(lit "in.bmp", (0, 5%Z))] in
  write_line (pipeline g gs (lit "in.bmp") (lit "$b")) = lit "dct2 in.bmp | multiply 2 | $b"
  /\ Forall (stage_ok toy_load toy_save toy_reg) (g :: gs) /\ user_word (lit "in.bmp") /\ user_word (lit "$b")
  /\ input_value toy_load st (lit "in.bmp") (Some (0, 5%Z)) /\ through (g :: gs) (Some (0, 5%Z)) = Some (0, 12%Z)
  /\ option_map (fun s => toy_var "b" s) (toy_line "dct2 in.bmp | multiply 2 | $b" st) = Some (Some (0, 12%Z)).
Proof.
  assert (W : forall a, forallb (fun c => negb (isspace c) && negb (Ascii.eqb c "|"%char)) a = true -> a <> [] -> plain a).
  { intros a H N. split; [exact N|]. apply Forall_forall. intros c I. eapply forallb_forall in H; [|exact I].
    destruct (isspace c), (Ascii.eqb_spec c "|"%char); try discriminate. auto. }
  assert (U : forall a, plain a -> is_policy a = false -> match var_of a with Some n => negb (pipe_name n) | None => true end = true -> user_word a).
  { intros a P Q R. split; [exact P|]. split; [exact Q|]. unfold user_arg. destruct (var_of a); [destruct (pipe_name s); [discriminate|reflexivity]|exact I]. }
  cbv zeta. split; [reflexivity|]. split.
  - apply Forall_cons; [|apply Forall_cons; [|apply Forall_nil]]; (split; [reflexivity|]; split; [discriminate|]; split; [discriminate|]);
      (split; [apply W; [reflexivity|discriminate]|]); [apply Forall_nil|]. apply Forall_cons; [|apply Forall_nil].
    apply U; [apply W; [reflexivity|discriminate]|reflexivity|reflexivity].
  - split; [apply U; [apply W; [reflexivity|discriminate]|reflexivity|reflexivity]|].
    split; [apply U; [apply W; [reflexivity|discriminate]|reflexivity|reflexivity]|].
    split; [apply (from_file toy_load (toy_state [] [(lit "in.bmp", (0, 5%Z))]) (lit "in.bmp")); reflexivity|].
    split; [reflexivity|vm_compute; reflexivity].
Qed.

(** A stage that fails lets the next one work on what an earlier line has left. *)
Theorem C63_stale_refuted : exists before line st0 st s, toy_line before st0 = Some st /\ no_pipes st0 /\ toy_line line st = Some s
  /\ line = "dct2 $m | multiply 2 | $b"%string /\ toy_var "m" st = None /\ toy_var "b" st = None /\ toy_var "b" s = Some (0, 12%Z).
Proof.
  exists "dct2 $a | multiply 2 | $c"%string, "dct2 $m | multiply 2 | $b"%string, (toy_state [(lit "a", (0, 5%Z))] []). do 2 eexists.
  split; [vm_compute; reflexivity|]. split; [intros m; reflexivity|]. split; [vm_compute; reflexivity|]. repeat split.
Qed.
Print Assumptions C63_stale_refuted.
(** A policy word before the input is right for the command alone, and breaks the pipeline. *)
Theorem C63_policy_refuted : exists st s s', no_pipes st
  /\ toy_line "dct2 par $a $b" st = Some s /\ toy_var "b" s = Some (0, 6%Z)
  /\ toy_line "dct2 par $a | multiply 2 | $b" st = Some s' /\ toy_var "b" s' = None.
Proof.
  exists (toy_state [(lit "a", (0, 5%Z))] []). do 2 eexists. split; [intros m; reflexivity|].
  split; [vm_compute; reflexivity|]. split; [reflexivity|]. split; [vm_compute; reflexivity|reflexivity].
Qed.
Print Assumptions C63_policy_refuted.
(** The commands that make an image take the output first, but the pipeline inserts it second. *)
Theorem C63_generator_refuted : exists parse make (reg : registry Z toy_files) st s s', no_pipes st
  /\ map_find (lit "zeros") reg = Some (GeneratorSchema, create_handler Z toy_files toy_save parse make)
  /\ parse (lit "3") = Some 3 /\ parse (lit "4") = Some 4 /\ make [3; 4] = Some (0, 7%Z)
  /\ run_line Z toy_files reg toy_one (lit "zeros $x 3 4") st = Some s /\ toy_var "x" s = Some (0, 7%Z)
  /\ run_line Z toy_files reg toy_one (lit "zeros 3 4 | $x") st = Some s' /\ toy_var "x" s' = None.
Proof.
  set (parse := fun a => if eqs a (lit "3") then Some 3 else if eqs a (lit "4") then Some 4 else None).
  set (make := fun l : list nat => Some (0, 7%Z)).
  exists parse, make, [(lit "zeros", (GeneratorSchema, create_handler Z toy_files toy_save parse make))], (toy_state [] []). do 2 eexists.
  split; [intros m; reflexivity|]. split; [reflexivity|]. split; [reflexivity|]. split; [reflexivity|]. split; [reflexivity|].
  split; [vm_compute; reflexivity|]. split; [reflexivity|]. split; [vm_compute; reflexivity|reflexivity].
Qed.
Print Assumptions C63_generator_refuted.
