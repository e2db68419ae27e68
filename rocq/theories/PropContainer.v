(** PropContainer.v - the container commands, transform_container, remove and rename: C123 to C126. *)
From Coq Require Import Ascii String.
From Verif Require Import Base CliModel CliProofs PipeProofs ContainerModel ContainerProofs.
Open Scope nat_scope.

Notation var st n := (map_find n (vars _ _ st)).
(** the same files, and the same variables but for one *)
Definition only {A F} (n : str) (st st' : state (payload A) F) : Prop :=
  files _ _ st' = files _ _ st /\ forall m, m <> n -> var st' m = var st m.

Lemma only_refl {A F} n (st : state (payload A) F) : only n st st.
Proof. split; reflexivity. Qed.
Lemma only_put {A F} n v (st : state (payload A) F) : only (sanitize n) st (put A F n v st).
Proof. split; [reflexivity|]. intros m N. rewrite var_put. apply eqs_neq in N. rewrite N. reflexivity. Qed.
Lemma load_var {A F} lf listed (st : state (payload A) F) c T v : var st (sanitize c) = Some (T, v) -> listed T = true ->
  load_listed A F lf listed st (as_var c) = Some (T, v).
Proof. intros H L. unfold load_listed, load_arg. simpl dollar. cbn [tl as_var]. rewrite H. simpl. rewrite L. reflexivity. Qed.

(** ** C123  The container commands *)
(** whatever the arguments, only the output variable can change *)
Theorem C123_frame : forall A F lf parse args (st : state (payload A) F),
  only (sanitize (tl (nth 1 args []))) st (create_container A F lf args st)
  /\ only (sanitize (tl (nth 2 args []))) st (append_element A F lf args st)
  /\ only (sanitize (tl (nth 1 args []))) st (erase_element A F lf parse args st)
  /\ only (sanitize (tl (nth 1 args []))) st (get_element A F lf parse args st).
Proof.
  intros A F lf parse args st. split; [|split; [|split]].
  - destruct args as [|a [|b r]]; try apply only_refl. cbn [create_container nth]. destruct (negb (dollar b)); [apply only_refl|].
    destruct (load_listed A F lf data_type st a) as [[T v]|]; [apply only_put|apply only_refl].
  - destruct args as [|a [|b [|c r]]]; try apply only_refl. cbn [append_element nth]. destruct (negb (dollar c)); [apply only_refl|].
    destruct (load_listed A F lf container_type st a) as [[T v]|]; [|apply only_refl].
    destruct (shape_of T) as [[[] E]|]; try apply only_refl; (destruct (negb (dollar b)); [apply only_refl|]);
      destruct (ws_retrieve (payload A) E (tl b) (vars (payload A) F st)); try apply only_refl; apply only_put.
  - destruct args as [|a [|b [|c r]]]; try apply only_refl. cbn [erase_element nth]. destruct (negb (dollar b)); [apply only_refl|].
    destruct (parse c) as [i|]; [|apply only_refl]. destruct (load_listed A F lf container_type st a) as [[T v]|]; [|apply only_refl].
    destruct (shape_of T) as [[[] E]|]; try apply only_refl; (destruct (length (items v) <=? i); [apply only_refl|apply only_put]).
  - destruct args as [|a [|b [|c r]]]; try apply only_refl. cbn [get_element nth]. destruct (negb (dollar b)); [apply only_refl|].
    destruct (parse c) as [i|]; [|apply only_refl]. destruct (load_listed A F lf container_type st a) as [[T v]|]; [|apply only_refl].
    destruct (shape_of T) as [[k E]|]; [|apply only_refl]. destruct (nth_error (items v) i); [apply only_put|apply only_refl].
Qed.
Print Assumptions C123_frame.

(** a container that can grow, and its element type *)
Definition sequence (T E : nat) : Prop := shape_of T = Some (KVector, E) \/ shape_of T = Some (KDeque, E) \/ shape_of T = Some (KList, E).

Theorem C123_create : forall A F lf (st : state (payload A) F) p c T v,
  var st (sanitize p) = Some (T, v) -> data_type T = true ->
  var (create_container A F lf [as_var p; as_var c] st) (sanitize c) = Some (vector_of T, Items [v]).
Proof.
  intros A F lf st p c T v H D. cbn [create_container]. rewrite (load_var lf data_type st p T v H D). change (negb (dollar (as_var c))) with false.
  cbn [tl as_var]. rewrite var_put, eqs_refl. reflexivity.
Qed.
Print Assumptions C123_create.
Theorem C123_create_file : forall A F lf (st : state (payload A) F) f c T v,
  dollar f = false -> dollar (sanitize f) = false -> lf (files _ _ st) (sanitize f) = Some (T, v) -> data_type T = true ->
  var (create_container A F lf [f; as_var c] st) (sanitize c) = Some (vector_of T, Items [v]).
Proof.
  intros A F lf st f c T v N N' H D. cbn [create_container]. unfold load_listed, load_arg. rewrite N, N', H, D.
  change (negb (dollar (as_var c))) with false. cbn [tl as_var]. rewrite var_put, eqs_refl. reflexivity.
Qed.
Print Assumptions C123_create_file.
(** an element goes to the end; the container stays of its kind; the input is not changed unless it is the output *)
Theorem C123_append : forall A F lf (st : state (payload A) F) c e d T E l x,
  var st (sanitize c) = Some (T, Items l) -> container_type T = true -> sequence T E -> var st (sanitize e) = Some (E, x) ->
  var (append_element A F lf [as_var c; as_var e; as_var d] st) (sanitize d) = Some (T, Items (l ++ [x])).
Proof.
  intros A F lf st c e d T E l x H D S X. cbn [append_element]. rewrite (load_var lf container_type st c T _ H D).
  change (negb (dollar (as_var d))) with false. change (negb (dollar (as_var e))) with false. cbn [tl as_var].
  assert (W : ws_retrieve (payload A) E e (vars (payload A) F st) = Some x) by (unfold ws_retrieve; rewrite X, Nat.eqb_refl; reflexivity).
  cbn [items]. destruct S as [S|[S|S]]; rewrite S, W; rewrite var_put, eqs_refl; reflexivity.
Qed.
Print Assumptions C123_append.
Theorem C123_erase : forall A F lf parse (st : state (payload A) F) c d n T E l1 x l2,
  var st (sanitize c) = Some (T, Items (l1 ++ x :: l2)) -> container_type T = true -> sequence T E -> parse n = Some (length l1) ->
  var (erase_element A F lf parse [as_var c; as_var d; n] st) (sanitize d) = Some (T, Items (l1 ++ l2)).
Proof.
  intros A F lf parse st c d n T E l1 x l2 H D S P. cbn [erase_element]. rewrite (load_var lf container_type st c T _ H D), P.
  change (negb (dollar (as_var d))) with false. cbn [tl as_var items].
  rewrite app_length. cbn [length]. assert (B : (length l1 + Datatypes.S (length l2) <=? length l1) = false) by (apply Nat.leb_gt; lia).
  assert (Q : firstn (length l1) (l1 ++ x :: l2) ++ skipn (Datatypes.S (length l1)) (l1 ++ x :: l2) = l1 ++ l2).
  { rewrite firstn_app, Nat.sub_diag, firstn_all. cbn [firstn]. rewrite app_nil_r, skipn_app.
    rewrite skipn_all2 by lia. replace (Datatypes.S (length l1) - length l1) with 1 by lia. reflexivity. }
  destruct S as [S|[S|S]]; rewrite S, B, Q; rewrite var_put, eqs_refl; reflexivity.
Qed.
Print Assumptions C123_erase.
Theorem C123_get : forall A F lf parse (st : state (payload A) F) c d n i T k E l x,
  var st (sanitize c) = Some (T, Items l) -> container_type T = true -> shape_of T = Some (k, E) -> ~ (k = KVector /\ E = bool_type) ->
  parse n = Some i -> nth_error l i = Some x ->
  var (get_element A F lf parse [as_var c; as_var d; n] st) (sanitize d) = Some (E, x).
Proof.
  intros A F lf parse st c d n i T k E l x H D S B P X. cbn [get_element]. rewrite (load_var lf container_type st c T _ H D), P, S.
  change (negb (dollar (as_var d))) with false. cbn [tl as_var items]. rewrite X, var_put, eqs_refl. f_equal. f_equal.
  unfold element_type. destruct k; try reflexivity. destruct (Nat.eqb_spec E bool_type); [exfalso; auto|reflexivity].
Qed.
Print Assumptions C123_get.

(** ... and nothing at all happens in the other cases *)
Theorem C123_refused : forall A F lf parse (st : state (payload A) F) c d e n T l,
  var st (sanitize c) = Some (T, Items l) ->
  (container_type T = false ->
     append_element A F lf [as_var c; as_var e; as_var d] st = st
     /\ erase_element A F lf parse [as_var c; as_var d; n] st = st /\ get_element A F lf parse [as_var c; as_var d; n] st = st)
  /\ (data_type T = false -> create_container A F lf [as_var c; as_var d] st = st)
  /\ ((forall k E, shape_of T = Some (k, E) -> forall x, var st (sanitize e) <> Some (E, x)) ->
      append_element A F lf [as_var c; as_var e; as_var d] st = st)
  /\ ((forall i, parse n = Some i -> length l <= i) ->
      erase_element A F lf parse [as_var c; as_var d; n] st = st /\ get_element A F lf parse [as_var c; as_var d; n] st = st)
  /\ (forall out, dollar out = false ->
      create_container A F lf [as_var c; out] st = st /\ append_element A F lf [as_var c; as_var e; out] st = st
      /\ erase_element A F lf parse [as_var c; out; n] st = st /\ get_element A F lf parse [as_var c; out; n] st = st)
  /\ (forall x, dollar x = false -> append_element A F lf [as_var c; x; as_var d] st = st).
Proof.
  intros A F lf parse st c d e n T l H.
  assert (LD : forall listed, load_listed A F lf listed st (as_var c) = if listed T then Some (T, Items l) else None).
  { intros listed. unfold load_listed, load_arg. change (dollar (as_var c)) with true. cbn [tl as_var]. rewrite H. reflexivity. }
  split; [|split; [|split; [|split; [|split]]]].
  - intros N. cbn [append_element erase_element get_element]. change (dollar (as_var d)) with true. cbn [negb]. rewrite !LD, N.
    destruct (parse n); auto.
  - intros N. cbn [create_container]. change (dollar (as_var d)) with true. cbn [negb]. rewrite LD, N. reflexivity.
  - intros N. cbn [append_element]. change (dollar (as_var d)) with true. change (dollar (as_var e)) with true. cbn [negb]. rewrite LD.
    destruct (container_type T); [|reflexivity]. destruct (shape_of T) as [[k E]|] eqn:S; [|reflexivity].
    assert (W : ws_retrieve (payload A) E (tl (as_var e)) (vars (payload A) F st) = None).
    { unfold ws_retrieve. cbn [tl as_var]. destruct (map_find (sanitize e) (vars (payload A) F st)) as [[t x]|] eqn:X; [|reflexivity].
      destruct (Nat.eqb_spec t E) as [->|]; [|reflexivity]. exfalso. exact (N k E eq_refl x eq_refl). }
    rewrite W. destruct k; reflexivity.
  - intros N. cbn [erase_element get_element]. change (dollar (as_var d)) with true. cbn [negb]. rewrite LD.
    destruct (parse n) as [i|] eqn:P; [|auto]. specialize (N i eq_refl). destruct (container_type T); [|auto].
    cbn [items]. assert (B : (length l <=? i) = true) by (apply Nat.leb_le; lia).
    assert (X : nth_error l i = None) by (apply nth_error_None; lia).
    rewrite B, X. destruct (shape_of T) as [[[] E]|]; auto.
  - intros out N. cbn [create_container append_element erase_element get_element]. rewrite N. auto.
  - intros x N. cbn [append_element]. change (dollar (as_var d)) with true. cbn [negb]. rewrite LD, N. cbn [negb].
    destruct (container_type T); [|reflexivity]. destruct (shape_of T) as [[[] E]|]; reflexivity.
Qed.
Print Assumptions C123_refused.

(** a container made from an image by one create_container and any number of append_element *)
Definition build {A F} lf (c p : str) (es : list str) (st : state (payload A) F) : state (payload A) F :=
  fold_left (fun st e => append_element A F lf [as_var c; as_var e; as_var c] st) es (create_container A F lf [as_var p; as_var c] st).
Theorem C123_build : forall A F lf (st : state (payload A) F) c p es T v xs,
  is_image T = true -> var st (sanitize p) = Some (T, v) ->
  Forall2 (fun e x => sanitize e <> sanitize c /\ var st (sanitize e) = Some (T, x)) es xs ->
  var (build lf c p es st) (sanitize c) = Some (vector_of T, Items (v :: xs)) /\ only (sanitize c) st (build lf c p es st).
Proof.
  intros A F lf st c p es T v xs I H E.
  assert (DT : data_type T = true) by (unfold data_type; rewrite I; reflexivity).
  assert (CT : container_type (vector_of T) = true).
  { unfold container_type, image_container. rewrite shape_vector, I. apply Bool.orb_true_r. }
  assert (G : forall es xs, Forall2 (fun e x => sanitize e <> sanitize c /\ var st (sanitize e) = Some (T, x)) es xs ->
    forall st1 l, only (sanitize c) st st1 -> var st1 (sanitize c) = Some (vector_of T, Items l) ->
    let st2 := fold_left (fun st e => append_element A F lf [as_var c; as_var e; as_var c] st) es st1 in
    var st2 (sanitize c) = Some (vector_of T, Items (l ++ xs)) /\ only (sanitize c) st st2).
  { clear es xs E. induction 1 as [|e x es xs [N X] _ IH]; intros st1 l [O1 O2] V; cbn [fold_left].
    - rewrite app_nil_r. split; [exact V|split; assumption].
    - assert (X1 : var st1 (sanitize e) = Some (T, x)) by (rewrite O2; assumption).
      pose proof (C123_append A F lf st1 c e c (vector_of T) T l x V CT (or_introl (shape_vector T)) X1) as V1.
      destruct (C123_frame A F lf (fun _ => None) [as_var c; as_var e; as_var c] st1) as (_ & [P1 P2] & _). cbn [nth tl as_var] in P1, P2.
      specialize (IH (append_element A F lf [as_var c; as_var e; as_var c] st1) (l ++ [x])). rewrite <- app_assoc in IH. cbn [app] in IH.
      apply IH; [|exact V1]. split; [congruence|]. intros m M. unfold as_var. rewrite P2 by exact M. apply O2, M. }
  unfold build. apply (G es xs E (create_container A F lf [as_var p; as_var c] st) [v]).
  - exact (proj1 (C123_frame A F lf (fun _ => None) [as_var p; as_var c] st)).
  - apply C123_create; assumption.
Qed.
Print Assumptions C123_build.
(** every element can be taken out again *)
Theorem C123_build_get : forall A F lf parse (st : state (payload A) F) c p es T v xs d n i x,
  is_image T = true -> var st (sanitize p) = Some (T, v) ->
  Forall2 (fun e x => sanitize e <> sanitize c /\ var st (sanitize e) = Some (T, x)) es xs ->
  parse n = Some i -> nth_error (v :: xs) i = Some x ->
  var (get_element A F lf parse [as_var c; as_var d; n] (build lf c p es st)) (sanitize d) = Some (T, x).
Proof.
  intros A F lf parse st c p es T v xs d n i x I H E P X.
  destruct (C123_build A F lf st c p es T v xs I H E) as [B _].
  eapply C123_get; [exact B| |apply shape_vector| |exact P|exact X].
  - unfold container_type, image_container. rewrite shape_vector, I. apply Bool.orb_true_r.
  - intros [_ ->]. discriminate I.
Qed.
Print Assumptions C123_build_get.

(** the result of create_container for a container of numbers is a container of containers, which none of the other commands
    takes: a user cannot add to it or get its element *)
Theorem C123_nested_refuted : forall A F lf parse (st : state (payload A) F) p c d e n T v,
  var st (sanitize p) = Some (T, v) -> data_type T = true -> is_image T = false ->
  exists st', create_container A F lf [as_var p; as_var c] st = st' /\ var st' (sanitize c) = Some (vector_of T, Items [v])
    /\ append_element A F lf [as_var c; as_var e; as_var d] st' = st'
    /\ erase_element A F lf parse [as_var c; as_var d; n] st' = st'
    /\ get_element A F lf parse [as_var c; as_var d; n] st' = st'.
Proof.
  intros A F lf parse st p c d e n T v H D I. eexists; split; [reflexivity|].
  pose proof (C123_create A F lf st p c T v H D) as B. split; [exact B|].
  destruct (C123_refused A F lf parse _ c d e n _ _ B) as [R _]. apply R.
  unfold container_type, data_type, image_container. rewrite shape_vector, I. unfold is_image in *. rewrite base_vector.
  unfold data_type, is_image in D. rewrite I in D. cbn [orb] in D |- *. destruct (shape_of T) as [[k E]|] eqn:S; [|discriminate].
  destruct (is_number T) eqn:N; [|reflexivity]. apply base_shape in N. congruence.
Qed.
Print Assumptions C123_nested_refuted.
(** an element of a std::vector<bool> comes out as something that is no bool *)
Theorem C123_bool_refuted : forall A F lf parse (st : state (payload A) F) c d n i l x,
  var st (sanitize c) = Some (vector_of bool_type, Items l) -> parse n = Some i -> nth_error l i = Some x ->
  ws_retrieve _ bool_type d (vars _ _ (get_element A F lf parse [as_var c; as_var d; n] st)) = None.
Proof.
  intros A F lf parse st c d n i l x H P X. cbn [get_element]. rewrite (load_var lf container_type st c _ _ H) by reflexivity.
  change (negb (dollar (as_var d))) with false. rewrite P, shape_vector. cbn [items tl as_var]. rewrite X.
  unfold ws_retrieve. rewrite var_put, eqs_refl. reflexivity.
Qed.
Print Assumptions C123_bool_refuted.

(** three images of type 0 *)
Definition cex : state (payload nat) nat :=
  mkState (payload nat) nat [(lit "a", (0, Atom 10)); (lit "b", (0, Atom 20)); (lit "k", (217, Items [Atom 1; Atom 0]))] 5.
Definition no_file (f : nat) (s : str) : option (any (payload nat)) := None.
Definition no_save (f : nat) (s : str) (v : any (payload nat)) : option nat := None.
Definition digit (s : str) : option nat := match s with [c] => Some (nat_of_ascii c - 48) | _ => None end.
Example C123_ex :
  var (build no_file (lit "c") (lit "a") [lit "b"; lit "a"] cex) (lit "c") = Some (1, Items [Atom 10; Atom 20; Atom 10])
  /\ var (get_element nat nat no_file digit [lit "$c"; lit "$x"; lit "1"] (build no_file (lit "c") (lit "a") [lit "b"; lit "a"] cex)) (lit "x") = Some (0, Atom 20)
  /\ var (erase_element nat nat no_file digit [lit "$c"; lit "$x"; lit "0"] (build no_file (lit "c") (lit "a") [lit "b"; lit "a"] cex)) (lit "x") = Some (1, Items [Atom 20; Atom 10]).
Proof. vm_compute. repeat split. Qed.
Example C123_ex_hyp : is_image 0 = true /\ Forall2 (fun e x => sanitize e <> sanitize (lit "c") /\ var cex (sanitize e) = Some (0, x)) [lit "b"; lit "a"] [Atom 20; Atom 10].
Proof. split; [reflexivity|]. repeat constructor; vm_compute; discriminate. Qed.
Example C123_ex_nested : data_type 217 = true /\ is_image 217 = false /\ var cex (lit "k") = Some (217, Items [Atom 1; Atom 0]) /\ vector_of bool_type = 37 /\ sequence 217 36.
Proof. repeat split. left. reflexivity. Qed.

(** ** C124  transform_container without a policy and with seq *)
(** what becomes of the variables when [n] elements have been transformed and [v] stored in [d] *)
Definition transformed {A F} (n : nat) (d : str) (v : any (payload A)) (st st' : state (payload A) F) : Prop :=
  files _ _ st' = files _ _ st /\ var st' d = Some v
  /\ (forall m, m <> d -> temp 0 n m -> var st' m = None)
  /\ (forall m, m <> d -> ~ temp 0 n m -> var st' m = var st m).
(** a container [l] of elements of the type [E] under the name [c] *)
Definition container_at {A F} (st : state (payload A) F) (c : str) (T E : nat) (l : list (payload A)) : Prop :=
  var st (sanitize c) = Some (T, Items l) /\ container_type T = true /\ sequence T E /\ E <> bool_type.
Definition no_policies (l : list str) : Prop := Forall (fun a => is_policy a = false) l.
(** the commands of MetaTransformHandler and MetaScalarHandler with a processor [core] *)
Definition command_of {A F} lf sf (reg : registry (payload A) F) (policy cmd : str) (sub : list str) (core : any (payload A) -> option (any (payload A))) : Prop :=
  exists sc extra setup, setup policy sub = Some core /\
    (extra <= length sub /\ map_find cmd reg = Some (sc, transform_handler _ F lf sf extra setup)
     \/ extra <= S (length sub) /\ map_find cmd reg = Some (sc, scalar_handler _ F lf extra setup)).

Lemma command_does {A F} lf sf reg policy cmd sub core : policy = [] \/ is_policy policy = true -> no_policies sub ->
  @command_of A F lf sf reg policy cmd sub core -> does A F reg policy cmd sub core.
Proof.
  intros P N (sc & extra & setup & S & [[L R]|[L R]]).
  - exact (does_transform A F lf sf reg policy cmd sub sc extra setup core P N L R S).
  - exact (does_scalar A F lf reg policy cmd sub sc extra setup core P N L R S).
Qed.
(** the arguments are the policy words and the others *)
Definition arguments (policy : str) (l args : list str) : Prop :=
  policy = [] /\ args = l \/ policy = lit "seq" /\ exists l1 l2, l = l1 ++ l2 /\ args = l1 ++ [lit "seq"] ++ l2.
Lemma scalar_arguments policy l args : no_policies l -> arguments policy l args ->
  scalar_args args = (policy, l) /\ (policy = [] \/ is_policy policy = true).
Proof.
  assert (G : forall l, no_policies l -> filter is_policy l = []).
  { induction 1 as [|a r E _ IH]; [reflexivity|]. simpl. rewrite E. exact IH. }
  intros N [[-> ->]|[-> (l1 & l2 & -> & ->)]]; rewrite scalar_args_spec.
  - rewrite G by exact N. rewrite filter_nopol by exact N. auto.
  - apply Forall_app in N as [N1 N2]. split; [|right; reflexivity].
    unfold args_filter. rewrite !filter_app, (G l1 N1), (G l2 N2).
    pose proof (filter_nopol l1 N1) as E1. pose proof (filter_nopol l2 N2) as E2. unfold args_filter in E1, E2. rewrite E1, E2. reflexivity.
Qed.

Lemma transform_unfold A F lf reg policy input output cmd sub args (st : state (payload A) F) T E l :
  no_policies (as_var input :: output :: cmd :: sub) -> arguments policy (as_var input :: output :: cmd :: sub) args ->
  container_at st input T E l -> l <> [] ->
  transform_container A F lf reg args st
  = let '(st, rs) := tc_loop A F reg policy cmd sub 0 (map (pair E) l) st in
    match rs with Some rs => Done A F (tc_finish A F output rs st) | None => match policy with [] => Done A F st | _ => Terminated A F end end.
Proof.
  intros N AR (H & CT & S & NB) NE. destruct (scalar_arguments _ _ _ N AR) as [SA _]. unfold transform_container. rewrite SA.
  rewrite (load_var lf container_type st input T (Items l) H CT). cbn [items].
  assert (ET : forall k, element_type k E = E).
  { intros []; try reflexivity. simpl. destruct (Nat.eqb_spec E bool_type); [contradiction|reflexivity]. }
  destruct l as [|x l]; [congruence|].
  destruct S as [S|[S|S]]; rewrite S, !ET; destruct AR as [[-> _]|[-> _]]; reflexivity.
Qed.

Lemma results_core {A F} (core : any (payload A) -> option (any (payload A))) (st : state (payload A) F) E T' : forall l ys i,
  Forall2 (fun x y => core (E, x) = Some (T', y)) l ys -> results A F core st i (map (pair E) l) = Some (map (pair T') ys).
Proof.
  intros l ys i H. revert i. induction H as [|x y l ys E1 _ IH]; intros i; [reflexivity|].
  cbn [map results]. unfold result_of. rewrite E1, IH. reflexivity.
Qed.
Lemma map_snd_pair {A B} (a : A) (l : list B) : map snd (map (pair a) l) = l.
Proof. rewrite map_map, map_id. reflexivity. Qed.
Lemma forallb_pair {B} (a : nat) (l : list B) : forallb (fun r => fst r =? a) (map (pair a) l) = true.
Proof. induction l as [|b l IH]; [reflexivity|]. simpl. rewrite Nat.eqb_refl. exact IH. Qed.

(** every element is replaced by what the command gives for it; the result is a std::vector in the variable named by the output
    argument; nothing else changes but the variables __tc_in_0, __tc_out_0, ..., which are gone *)
Theorem C124_transform : forall A F lf sf reg policy input output cmd sub args (st : state (payload A) F) T E l core T' ys,
  no_policies (as_var input :: as_var output :: cmd :: sub) -> arguments policy (as_var input :: as_var output :: cmd :: sub) args ->
  container_at st input T E l -> l <> [] -> command_of lf sf reg policy cmd sub core ->
  Forall2 (fun x y => core (E, x) = Some (T', y)) l ys -> result_type T' = true ->
  exists st', transform_container A F lf reg args st = Done A F st'
    /\ transformed (length l) (sanitize output) (vector_of T', Items ys) st st'.
Proof.
  intros A F lf sf reg policy input output cmd sub args st T E l core T' ys N AR C NE CM H RT.
  rewrite (transform_unfold A F lf reg policy input (as_var output) cmd sub args st T E l N AR C NE).
  destruct (scalar_arguments _ _ _ N AR) as [_ P].
  assert (N' : no_policies sub) by (do 3 apply Forall_inv_tail in N; exact N).
  pose proof (command_does lf sf reg policy cmd sub core P N' CM) as D.
  destruct (loop_ok A F reg policy cmd sub core D (map (pair E) l) 0 st _ (results_core core st E T' l ys 0 H)) as (st1 & L & F1 & T1 & O1).
  rewrite L. rewrite map_length in T1, O1.
  destruct H as [|x y l ys E1 H]; [congruence|]. cbn [map tc_finish]. rewrite RT.
  change ((T', y) :: map (pair T') ys) with (map (pair T') (y :: ys)). rewrite forallb_pair, map_snd_pair.
  eexists; split; [reflexivity|]. cbn [as_var put_output]. split; [exact F1|]. split; [rewrite var_put, eqs_refl; reflexivity|].
  split; intros m M Q; rewrite var_put; apply eqs_neq in M; rewrite M; auto.
Qed.
Print Assumptions C124_transform.

(** an empty container gives an empty vector of the type of its elements, and no command is run *)
Theorem C124_empty : forall A F lf reg policy input output cmd sub args (st : state (payload A) F) T E,
  no_policies (as_var input :: as_var output :: cmd :: sub) -> arguments policy (as_var input :: as_var output :: cmd :: sub) args ->
  container_at st input T E [] ->
  exists st', transform_container A F lf reg args st = Done A F st' /\ var st' (sanitize output) = Some (vector_of E, Items [])
    /\ only (sanitize output) st st'.
Proof.
  intros A F lf reg policy input output cmd sub args st T E N AR (H & CT & S & NB).
  destruct (scalar_arguments _ _ _ N AR) as [SA _]. unfold transform_container. rewrite SA.
  rewrite (load_var lf container_type st input T (Items []) H CT). cbn [items as_var put_output].
  exists (put A F output (vector_of E, Items []) st).
  split; [destruct S as [S|[S|S]]; rewrite S; reflexivity|]. split; [rewrite var_put, eqs_refl; reflexivity|apply only_put].
Qed.
Print Assumptions C124_empty.

(** results that are no image, no container of numbers and no Gaussian are thrown away: the output variable is not written *)
Theorem C124_scalars_refuted : forall A F lf sf reg policy input output cmd sub args (st : state (payload A) F) T E l core T' ys,
  no_policies (as_var input :: output :: cmd :: sub) -> arguments policy (as_var input :: output :: cmd :: sub) args ->
  container_at st input T E l -> l <> [] -> command_of lf sf reg policy cmd sub core ->
  Forall2 (fun x y => core (E, x) = Some (T', y)) l ys -> result_type T' = false ->
  exists st', transform_container A F lf reg args st = Done A F st' /\ files _ _ st' = files _ _ st
    /\ (forall m, ~ temp 0 (length l) m -> var st' m = var st m).
Proof.
  intros A F lf sf reg policy input output cmd sub args st T E l core T' ys N AR C NE CM H RT.
  rewrite (transform_unfold A F lf reg policy input output cmd sub args st T E l N AR C NE).
  destruct (scalar_arguments _ _ _ N AR) as [_ P].
  assert (N' : no_policies sub) by (do 3 apply Forall_inv_tail in N; exact N).
  pose proof (command_does lf sf reg policy cmd sub core P N' CM) as D.
  destruct (loop_ok A F reg policy cmd sub core D (map (pair E) l) 0 st _ (results_core core st E T' l ys 0 H)) as (st1 & L & F1 & T1 & O1).
  rewrite L. rewrite map_length in O1.
  destruct H as [|x y l ys E1 H]; [congruence|]. cbn [map tc_finish]. rewrite RT. exists st1. auto.
Qed.
Print Assumptions C124_scalars_refuted.

(** if the command fails for an element, the elements after it are not looked at and the output variable is not written; without
    a policy the input of the failed command stays in the workspace as __tc_in_k, with a policy the whole program is terminated,
    although the call stands in a try block *)
Theorem C124_failure : forall A F lf sf reg policy input output cmd sub args (st : state (payload A) F) T E l1 x l2 core T' ys,
  no_policies (as_var input :: output :: cmd :: sub) -> arguments policy (as_var input :: output :: cmd :: sub) args ->
  container_at st input T E (l1 ++ x :: l2) -> command_of lf sf reg policy cmd sub core ->
  Forall2 (fun x y => core (E, x) = Some (T', y)) l1 ys -> core (E, x) = None -> var st (tc_out (length l1)) = None ->
  match policy with
  | [] =>
      exists st', transform_container A F lf reg args st = Done A F st' /\ files _ _ st' = files _ _ st
        /\ var st' (tc_in (length l1)) = Some (E, x)
        /\ (forall m, temp 0 (length l1) m -> var st' m = None)
        /\ (forall m, ~ temp 0 (length l1) m -> m <> tc_in (length l1) -> var st' m = var st m)
  | _ => transform_container A F lf reg args st = Terminated A F
  end.
Proof.
  intros A F lf sf reg policy input output cmd sub args st T E l1 x l2 core T' ys N AR C CM H X V.
  assert (NE : l1 ++ x :: l2 <> []) by (destruct l1; discriminate).
  rewrite (transform_unfold A F lf reg policy input output cmd sub args st T E _ N AR C NE).
  destruct (scalar_arguments _ _ _ N AR) as [_ P].
  assert (N' : no_policies sub) by (do 3 apply Forall_inv_tail in N; exact N).
  pose proof (command_does lf sf reg policy cmd sub core P N' CM) as D.
  assert (R : result_of A F core st (0 + length (map (pair E) l1)) (E, x) = None).
  { rewrite map_length. cbn [Nat.add]. unfold result_of. rewrite X. exact V. }
  destruct (loop_fail A F reg policy cmd sub core D (map (pair E) l1) 0 st _ (E, x) (map (pair E) l2) (results_core core st E T' l1 ys 0 H) R) as (st1 & L & F1 & I1 & T1 & O1).
  assert (L' : tc_loop A F reg policy cmd sub 0 (map (pair E) (l1 ++ x :: l2)) st = (st1, None)) by (rewrite <- L; f_equal; apply map_app).
  rewrite L'. rewrite map_length in I1, T1, O1. cbn [Nat.add] in I1, O1.
  destruct policy as [|a p]; [|reflexivity]. exists st1. auto.
Qed.
Print Assumptions C124_failure.

Definition double_core (v : any (payload nat)) : option (any (payload nat)) :=
  match v with (0, Atom n) => if n =? 13 then None else Some (0, Atom (2 * n)) | _ => None end.
Definition creg : registry (payload nat) nat :=
  [(lit "double", (TransformerSchema, transform_handler _ nat no_file no_save 0 (fun _ _ => Some double_core)));
   (lit "size", (TransformerSchema, scalar_handler _ nat no_file 0 (fun _ _ => Some (fun _ => Some (36, Atom 1)))))].
Definition cst (l : list nat) (more : list (str * any (payload nat))) : state (payload nat) nat :=
  mkState (payload nat) nat (more ++ [(lit "d", (2, Items (map Atom l)))]) 5.
(** a deque of images *)
Example C124_ex : exists st', transform_container nat nat no_file creg [lit "$d"; lit "$e"; lit "double"] (cst [1; 2; 3] []) = Done _ _ st'
  /\ vars _ _ st' = [(lit "d", (2, Items [Atom 1; Atom 2; Atom 3])); (lit "e", (1, Items [Atom 2; Atom 4; Atom 6]))].
Proof. eexists. split; vm_compute; reflexivity. Qed.
Example C124_ex_hyp : container_at (cst [1; 2; 3] []) (lit "d") 2 0 (map Atom [1; 2; 3])
  /\ command_of no_file no_save creg (lit "seq") (lit "double") [] double_core
  /\ arguments (lit "seq") [lit "$d"; lit "$e"; lit "double"] [lit "$d"; lit "seq"; lit "$e"; lit "double"].
Proof.
  split; [repeat split; [right; left; reflexivity|discriminate]|]. split.
  - exists TransformerSchema, 0, (fun _ _ => Some double_core). split; [reflexivity|]. left. split; [apply le_n|reflexivity].
  - right. split; [reflexivity|]. exists [lit "$d"], [lit "$e"; lit "double"]. split; reflexivity.
Qed.
Example C124_ex_failure : double_core (0, Atom 13) = None /\ exists st', transform_container nat nat no_file creg [lit "$d"; lit "$e"; lit "double"] (cst [1; 13; 3] []) = Done _ _ st'
  /\ vars _ _ st' = [(lit "__tc_in_1", (0, Atom 13)); (lit "d", (2, Items [Atom 1; Atom 13; Atom 3]))].
Proof. split; [reflexivity|]. eexists. split; vm_compute; reflexivity. Qed.
Example C124_ex_terminated : transform_container nat nat no_file creg [lit "seq"; lit "$d"; lit "$e"; lit "double"] (cst [1; 13; 3] []) = Terminated _ _.
Proof. vm_compute. reflexivity. Qed.
Example C124_ex_scalars : exists st', transform_container nat nat no_file creg [lit "$d"; lit "$e"; lit "size"] (cst [1; 2] []) = Done _ _ st'
  /\ vars _ _ st' = [(lit "d", (2, Items [Atom 1; Atom 2]))] /\ result_type 36 = false.
Proof. eexists. split; [vm_compute; reflexivity|]. split; vm_compute; reflexivity. Qed.

(** a variable of the user that is called __tc_in_0 is destroyed, and one that is called __tc_out_0 is taken for the result of a
    command that failed *)
Theorem C124_names_refuted :
  (exists args st st', transform_container nat nat no_file creg args st = Done _ _ st'
     /\ args = [lit "$d"; lit "$e"; lit "double"] /\ var st (lit "__tc_in_0") <> None /\ var st' (lit "__tc_in_0") = None)
  /\ (exists args st st', transform_container nat nat no_file creg args st = Done _ _ st'
     /\ args = [lit "$d"; lit "$e"; lit "double"] /\ double_core (0, Atom 13) = None
     /\ var st (lit "d") = Some (2, Items [Atom 13]) /\ var st' (lit "e") = Some (1, Items [Atom 99])).
Proof.
  split.
  - exists [lit "$d"; lit "$e"; lit "double"], (cst [1] [(lit "__tc_in_0", (0, Atom 7))]). eexists. split; [vm_compute; reflexivity|].
    split; [reflexivity|]. split; vm_compute; [discriminate|reflexivity].
  - exists [lit "$d"; lit "$e"; lit "double"], (cst [13] [(lit "__tc_out_0", (0, Atom 99))]). eexists. split; [vm_compute; reflexivity|].
    repeat split; vm_compute; reflexivity.
Qed.
Print Assumptions C124_names_refuted.
(** an output that is no variable loses its first letter and is written as a variable all the same *)
Theorem C124_output_refuted : exists args st st', transform_container nat nat no_file creg args st = Done _ _ st'
  /\ args = [lit "$d"; lit "out"; lit "double"] /\ dollar (lit "out") = false /\ var st (lit "ut") = None
  /\ var st' (lit "ut") = Some (1, Items [Atom 2]) /\ files _ _ st' = files _ _ st.
Proof.
  exists [lit "$d"; lit "out"; lit "double"], (cst [1] []). eexists. split; [vm_compute; reflexivity|]. repeat split; vm_compute; reflexivity.
Qed.
Print Assumptions C124_output_refuted.

(** ** C125  transform_container with the policy par *)
(** the threads of [n] elements have all had the turns that they need *)
Definition all_run (n : nat) (order : list nat) : Prop := forall i, i < n -> 6 <= count_occ Nat.eq_dec order i.

(** in whatever order the threads take turns, the results are those of the elements, in the order of the elements, no variable of
    an element is left, and nothing else has changed *)
Theorem C125_parallel : forall A F (core : any (payload A) -> option (any (payload A))) E T' l ys order (st : state (payload A) F),
  Forall2 (fun x y => core (E, x) = Some (T', y)) l ys -> all_run (length l) order ->
  let g := tc_par A F core (map (pair E) l) order st in
  dead _ _ g = false /\ map (result A) (threads _ _ g) = map (fun y => Some (T', y)) ys
  /\ files _ _ (gst _ _ g) = files _ _ st
  /\ (forall m, temp 0 (length l) m -> var (gst _ _ g) m = None)
  /\ (forall m, ~ temp 0 (length l) m -> var (gst _ _ g) m = var st m).
Proof.
  intros A F core E T' l ys order st H AR g. set (xs := map (pair E) l : list (any (payload A))). change (map (pair E) l) with xs in g.
  assert (LX : length xs = length l) by apply map_length.
  pose proof (par_inv A F core xs st order) as (L & FF & TT & O & DD). fold g in L, FF, TT, O, DD.
  assert (R : forall i x, nth_error xs i = Some x -> exists y, nth_error ys i = Some y /\ core x = Some (T', y)).
  { unfold xs. clear -H. induction H as [|a b l ys E1 _ IH]; intros [|i] x X; try discriminate.
    - injection X as <-. exists b. split; [reflexivity|exact E1].
    - apply IH. exact X. }
  assert (D : dead A F g = false).
  { destruct (dead A F g) eqn:D; [|reflexivity]. destruct (DD eq_refl) as (i & x & X & N). destruct (R i x X) as (y & _ & C).
    unfold result_of in N. rewrite C in N. discriminate. }
  assert (PC : forall i x t, nth_error xs i = Some x -> nth_error (threads A F g) i = Some t -> pc A t = 6).
  { intros i x t X TH. assert (Li : i < length xs) by (apply nth_error_Some; congruence).
    pose proof (par_pc A F core xs st order i D Li) as Q. fold g in Q. unfold pc_of in Q. rewrite TH in Q.
    specialize (AR i ltac:(lia)). lia. }
  assert (LY : length ys = length l) by (clear -H; induction H; simpl; congruence).
  split; [exact D|]. split; [|split; [exact FF|split]].
  - apply nth_error_ext. intros i. destruct (Nat.lt_ge_cases i (length xs)) as [Li|Li].
    + destruct (nth_error xs i) as [x|] eqn:X; [|apply nth_error_None in X; lia].
      destruct (nth_error (threads A F g) i) as [t|] eqn:TH; [|apply nth_error_None in TH; lia].
      destruct (TT i x t X TH) as ((_ & _ & P4) & _ & _). specialize (PC i x t X TH). destruct (R i x X) as (y & Y & C).
      rewrite !nth_error_map, TH, Y. simpl. f_equal. destruct (P4 ltac:(lia)) as [-> _]. unfold result_of. rewrite C. reflexivity.
    + rewrite !(proj2 (nth_error_None _ _)); [reflexivity| |]; rewrite map_length; lia.
  - intros m (i & Li & M). rewrite Nat.add_0_l in Li. destruct (nth_error xs i) as [x|] eqn:X; [|apply nth_error_None in X; lia].
    destruct (nth_error (threads A F g) i) as [t|] eqn:TH; [|apply nth_error_None in TH; lia].
    destruct (TT i x t X TH) as (_ & I1 & O1). rewrite (PC i x t X TH) in I1, O1. destruct M as [->| ->]; [exact I1|exact O1].
  - intros m N. apply O. rewrite LX. exact N.
Qed.
Print Assumptions C125_parallel.
(** so the vector that is stored is the same as without a policy *)
Corollary C125_same : forall A F lf sf reg input output cmd sub (st : state (payload A) F) T E l core T' ys order,
  no_policies (as_var input :: as_var output :: cmd :: sub) -> container_at st input T E l -> l <> [] ->
  command_of lf sf reg [] cmd sub core -> Forall2 (fun x y => core (E, x) = Some (T', y)) l ys -> result_type T' = true ->
  all_run (length l) order ->
  let g := tc_par A F core (map (pair E) l) order st in
  exists rs st', map (result A) (threads _ _ g) = map Some rs
    /\ transform_container A F lf reg (as_var input :: as_var output :: cmd :: sub) st = Done A F st'
    /\ forall m, var (tc_finish A F (as_var output) rs (gst _ _ g)) m = var st' m.
Proof.
  intros A F lf sf reg input output cmd sub st T E l core T' ys order N C NE CM H RT AR g.
  destruct (C125_parallel A F core E T' l ys order st H AR) as (D & R & FF & T1 & O1). fold g in D, R, FF, T1, O1.
  destruct (C124_transform A F lf sf reg [] input output cmd sub _ st T E l core T' ys N (or_introl (conj eq_refl eq_refl)) C NE CM H RT) as (st' & Q & F2 & V2 & T2 & O2).
  exists (map (pair T') ys), st'. split; [rewrite R, map_map; reflexivity|]. split; [exact Q|].
  intros m. destruct H as [|x y l ys E1 H]; [congruence|]. cbn [map tc_finish]. rewrite RT.
  change ((T', y) :: map (pair T') ys) with (map (pair T') (y :: ys)). rewrite forallb_pair, map_snd_pair. cbn [as_var put_output].
  rewrite var_put. destruct (eqs_spec m (sanitize output)) as [->|M]; [symmetry; exact V2|].
  destruct (temp_dec 0 (length (x :: l)) m) as [Y|Y]; [rewrite T1, T2 by assumption; reflexivity|rewrite O1, O2 by assumption; reflexivity].
Qed.
(** if the command fails for any element the program is terminated, in whatever order the threads take turns: the handler of the
    exception never sees it *)
Theorem C125_failure_refuted : forall A F (core : any (payload A) -> option (any (payload A))) xs order (st : state (payload A) F) k x,
  nth_error xs k = Some x -> core x = None -> var st (tc_out k) = None -> all_run (length xs) order ->
  dead _ _ (tc_par A F core xs order st) = true.
Proof.
  intros A F core xs order st k x X C V AR.
  pose proof (par_inv A F core xs st order) as (L & _ & TT & _). destruct (dead _ _ (tc_par A F core xs order st)) eqn:D; [reflexivity|exfalso].
  assert (Li : k < length xs) by (apply nth_error_Some; congruence).
  pose proof (par_pc A F core xs st order k D Li) as Q. unfold pc_of in Q.
  destruct (nth_error (threads A F (tc_par A F core xs order st)) k) as [t|] eqn:TH; [|apply nth_error_None in TH; lia].
  destruct (TT k x t X TH) as ((_ & _ & P4) & _). specialize (AR k Li). destruct (P4 ltac:(lia)) as [_ NN]. apply NN.
  unfold result_of. rewrite C. exact V.
Qed.
Print Assumptions C125_failure_refuted.
Example C125_ex : let g := tc_par nat nat double_core (map (pair 0) [Atom 1; Atom 2]) [0; 1; 1; 0; 0; 1; 0; 1; 1; 0; 0; 1] (cst [1; 2] []) in
  all_run 2 [0; 1; 1; 0; 0; 1; 0; 1; 1; 0; 0; 1] /\ dead _ _ g = false
  /\ map (result nat) (threads _ _ g) = [Some (0, Atom 2); Some (0, Atom 4)] /\ gst _ _ g = cst [1; 2] [].
Proof.
  split; [intros i L; destruct i as [|[|i]]; [vm_compute; lia|vm_compute; lia|lia]|]. vm_compute. repeat split.
Qed.

(** ** C126  remove and rename *)
Definition named (args : list str) (m : str) : Prop := exists a, In a args /\ dollar a = true /\ sanitize (tl a) = m.
Lemma fold_remove A F args : forall (st : state (payload A) F),
  let st' := fold_left (fun st a => if dollar a then del A F (tl a) st else st) args st in
  files _ _ st' = files _ _ st /\ forall m, (named args m -> var st' m = None) /\ (~ named args m -> var st' m = var st m).
Proof.
  induction args as [|a args IH]; intros st; cbn [fold_left].
  - split; [reflexivity|]. intros m. split; [intros (a & [] & _)|reflexivity].
  - destruct (IH (if dollar a then del A F (tl a) st else st)) as [F1 G]. split; [rewrite F1; destruct (dollar a); reflexivity|].
    intros m. destruct (G m) as [G1 G2]. split.
    + intros (b & B & DB & E). destruct (existsb (fun b => dollar b && eqs m (sanitize (tl b))) args) eqn:X.
      * apply G1. apply existsb_exists in X as (u & U1 & U2). apply andb_prop in U2 as [U2 U3]. apply eqs_eq in U3. exists u. auto.
      * assert (NN : ~ named args m).
        { intros (u & U1 & U2 & U3). assert (existsb (fun b => dollar b && eqs m (sanitize (tl b))) args = true); [|congruence].
          apply existsb_exists. exists u. split; [exact U1|]. rewrite U2, U3, eqs_refl. reflexivity. }
        rewrite (G2 NN). destruct B as [->|B]; [|exfalso; apply NN; exists b; auto]. rewrite DB, var_del, E, eqs_refl. reflexivity.
    + intros NN. rewrite G2 by (intros (u & U1 & U2 & U3); apply NN; exists u; split; [right; exact U1|auto]).
      destruct (dollar a) eqn:DA; [|reflexivity]. rewrite var_del. destruct (eqs_spec m (sanitize (tl a))) as [->|_]; [|reflexivity].
      exfalso. apply NN. exists a. split; [left; reflexivity|auto].
Qed.
(** remove takes away the variables that are named, and no others; files stay *)
Theorem C126_remove : forall A F args (st : state (payload A) F), args <> [lit "all"] ->
  files _ _ (remove_handler A F args st) = files _ _ st
  /\ forall m, (named args m -> var (remove_handler A F args st) m = None)
            /\ (~ named args m -> var (remove_handler A F args st) m = var st m).
Proof.
  intros A F args st N. assert (E : remove_handler A F args st = fold_left (fun st a => if dollar a then del A F (tl a) st else st) args st).
  { destruct args as [|a [|b r]]; [reflexivity| |reflexivity]. unfold remove_handler.
    destruct (eqs a (lit "all")) eqn:E; [apply eqs_eq in E; congruence|]. reflexivity. }
  rewrite E. apply fold_remove.
Qed.
Print Assumptions C126_remove.
Theorem C126_remove_all : forall A F (st : state (payload A) F),
  files _ _ (remove_handler A F [lit "all"] st) = files _ _ st /\ forall m, var (remove_handler A F [lit "all"] st) m = None.
Proof. intros A F st. split; reflexivity. Qed.
Print Assumptions C126_remove_all.
(** "all" among other arguments is not an error and removes nothing *)
Theorem C126_all_refuted : exists args st, In (lit "all") args /\ var (remove_handler nat nat args st) (lit "a") <> None /\ st = cex.
Proof. exists [lit "all"; lit "$b"], cex. split; [left; reflexivity|]. split; [vm_compute; discriminate|reflexivity]. Qed.
Print Assumptions C126_all_refuted.

Theorem C126_rename : forall A F a b (st : state (payload A) F) v, var st (sanitize a) = Some v -> sanitize a <> sanitize b ->
  let st' := rename_handler A F [as_var a; as_var b] st in
  files _ _ st' = files _ _ st /\ var st' (sanitize b) = Some v /\ var st' (sanitize a) = None
  /\ forall m, m <> sanitize a -> m <> sanitize b -> var st' m = var st m.
Proof.
  intros A F a b st v H N. cbn [rename_handler]. change (negb (dollar (as_var a)) || negb (dollar (as_var b))) with false. cbn [tl as_var].
  unfold ws_rename. rewrite H. cbn [snd vars files]. split; [reflexivity|].
  assert (E : eqs (sanitize b) (sanitize a) = false) by (apply eqs_neq; congruence).
  split; [rewrite find_erase, find_set, E, eqs_refl; reflexivity|]. split; [rewrite find_erase, eqs_refl; reflexivity|].
  intros m M1 M2. apply eqs_neq in M1, M2. rewrite find_erase, find_set, M1, M2. reflexivity.
Qed.
Print Assumptions C126_rename.
(** nothing happens without the variable, or when an argument is not a variable *)
Theorem C126_rename_refused : forall A F a b (st : state (payload A) F),
  var st (sanitize (tl a)) = None \/ dollar a = false \/ dollar b = false -> rename_handler A F [a; b] st = st.
Proof.
  intros A F a b st [H|[H|H]]; cbn [rename_handler]; [|rewrite H; reflexivity|rewrite H, Bool.orb_true_r; reflexivity].
  destruct (negb (dollar a) || negb (dollar b)); [reflexivity|]. unfold ws_rename. rewrite H. cbn [snd]. destruct st; reflexivity.
Qed.
Print Assumptions C126_rename_refused.
Example C126_ex : var (remove_handler nat nat [lit "$a"; lit "b"] cex) (lit "a") = None /\ var (remove_handler nat nat [lit "$a"; lit "b"] cex) (lit "b") = Some (0, Atom 20)
  /\ var (rename_handler nat nat [lit "$a"; lit "$z"] cex) (lit "z") = Some (0, Atom 10).
Proof. vm_compute. repeat split. Qed.
