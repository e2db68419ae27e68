(** ContainerProofs.v - the container commands: what they do to the variables. *)
From Coq Require Import Ascii String.
From Verif Require Import Base CliModel CliProofs PipeProofs ContainerModel.
Open Scope nat_scope.

Lemma shape_vector T : shape_of (vector_of T) = Some (KVector, T).
Proof.
  unfold shape_of, vector_of. assert (E : (6 * T + 1) mod 6 = 1) by (rewrite Nat.add_comm, Nat.mul_comm, Nat.mod_add by lia; reflexivity).
  assert (D : (6 * T + 1) / 6 = T) by (rewrite Nat.add_comm, Nat.mul_comm, Nat.div_add by lia; reflexivity).
  rewrite E, D. reflexivity.
Qed.
Lemma base_vector T c : base (vector_of T) c = false.
Proof. unfold base, vector_of. rewrite Nat.add_comm, Nat.mul_comm, Nat.mod_add by lia. reflexivity. Qed.
Lemma base_shape T c : base T c = true -> shape_of T = None.
Proof. unfold base, shape_of. intros H. apply andb_prop in H as [H _]. apply Nat.eqb_eq in H. rewrite H. reflexivity. Qed.
Lemma base_class T c d : base T c = true -> base T d = true -> c = d.
Proof. unfold base. intros H G. apply andb_prop in H as [_ H]. apply andb_prop in G as [_ G]. apply Nat.eqb_eq in H, G. congruence. Qed.

Lemma tc_in_inj i j : tc_in i = tc_in j -> i = j.
Proof. intros E. apply decimal_inj. apply app_inv_head in E. exact E. Qed.
Lemma tc_out_inj i j : tc_out i = tc_out j -> i = j.
Proof. intros E. apply decimal_inj. apply app_inv_head in E. exact E. Qed.
Lemma tc_in_out i j : tc_in i <> tc_out j.
Proof. unfold tc_in, tc_out. simpl. congruence. Qed.
Lemma tc_clean p i : (forall c r, lit p ++ decimal i = c :: r -> is_junk c = false) -> Forall (fun c => is_junk c = false) (lit p) ->
  sanitize (lit p ++ decimal i) = lit p ++ decimal i.
Proof.
  intros H P. apply sanitize_clean. split; [exact H|].
  intros r c E. assert (F : Forall (fun c => is_junk c = false) (lit p ++ decimal i)) by (apply Forall_app; split; [exact P|apply decimal_clean]).
  eapply Forall_forall in F; [exact F|]. rewrite E. apply in_or_app. right. left. reflexivity.
Qed.
Lemma tc_in_clean i : sanitize (tc_in i) = tc_in i.
Proof. apply tc_clean; [|repeat constructor]. intros c r E. simpl in E. injection E as <- _. reflexivity. Qed.
Lemma tc_out_clean i : sanitize (tc_out i) = tc_out i.
Proof. apply tc_clean; [|repeat constructor]. intros c r E. simpl in E. injection E as <- _. reflexivity. Qed.
Global Opaque tc_in tc_out.

Section P.
  Variable A F : Type.
  Notation V := (payload A).
  Notation any := (any V).
  Notation state := (state V F).
  Notation put := (put A F).
  Notation del := (del A F).
  Notation var st n := (map_find n (vars V F st)).

  Lemma var_put n v st m : var (put n v st) m = if eqs m (sanitize n) then Some v else var st m.
  Proof. unfold ContainerModel.put, ws_store. simpl. apply find_set. Qed.
  Lemma files_put n v st : files V F (put n v st) = files V F st.
  Proof. reflexivity. Qed.
  Lemma var_del n st m : var (del n st) m = if eqs m (sanitize n) then None else var st m.
  Proof.
    unfold ContainerModel.del, ws_remove. simpl. destruct (map_find (sanitize n) (vars V F st)) eqn:E; simpl.
    - apply find_erase.
    - destruct (eqs_spec m (sanitize n)) as [->|_]; [exact E|reflexivity].
  Qed.
  Lemma files_del n st : files V F (del n st) = files V F st.
  Proof. reflexivity. Qed.

  (** the names of the variables of the elements [i], ..., [i + n - 1] *)
  Definition temp (i n : nat) (m : str) : Prop := exists j, i <= j < i + n /\ (m = tc_in j \/ m = tc_out j).

  (** ** the body of transform_container *)
  (** the command gives what [core] gives for its input, and touches nothing else *)
  Definition does (reg : registry V F) (policy cmd : str) (sub : list str) (core : any -> option any) : Prop :=
    forall i st v, var st (tc_in i) = Some v ->
    execute V F reg cmd (tc_args policy sub i) st = match core v with Some w => put (tc_out i) w st | None => st end.

  Lemma filter_nopol sub : Forall (fun a => is_policy a = false) sub -> args_filter sub = sub.
  Proof. induction 1 as [|a l E _ IH]; [reflexivity|]. unfold args_filter in *. simpl. rewrite E. simpl. rewrite IH. reflexivity. Qed.
  Lemma extract_nopol sub : Forall (fun a => is_policy a = false) sub -> extract_policy sub = [].
  Proof. induction 1 as [|a l E _ IH]; [reflexivity|]. simpl. rewrite E. exact IH. Qed.
  Lemma is_policy_var n : is_policy (as_var n) = false.
  Proof. reflexivity. Qed.
  Lemma tc_filter policy sub i : (policy = [] \/ is_policy policy = true) -> Forall (fun a => is_policy a = false) sub ->
    args_filter (tc_args policy sub i) = as_var (tc_in i) :: as_var (tc_out i) :: sub.
  Proof.
    intros P N. unfold tc_args. rewrite <- (filter_nopol sub N) at 2. unfold args_filter. rewrite filter_app. simpl app.
    destruct P as [->|P]; [reflexivity|]. destruct policy as [|c p]; [reflexivity|].
    change (filter (fun a => negb (is_policy a)) [c :: p]) with (if negb (is_policy (c :: p)) then [c :: p] else []).
    rewrite P. reflexivity.
  Qed.
  Lemma tc_policy policy sub i : (policy = [] \/ is_policy policy = true) -> Forall (fun a => is_policy a = false) sub ->
    extract_policy (tc_args policy sub i) = policy.
  Proof.
    intros P N. unfold tc_args. destruct P as [->|P].
    - simpl app. cbn [extract_policy]. rewrite !is_policy_var. apply extract_nopol. exact N.
    - destruct policy as [|c p]; [discriminate|]. cbn [app extract_policy]. rewrite P. reflexivity.
  Qed.
  Lemma dollar_var n : dollar (as_var n) = true.
  Proof. reflexivity. Qed.

  Lemma does_transform (load_file : F -> str -> option any) (save_file : F -> str -> any -> option F) reg policy cmd sub sc extra setup core :
    (policy = [] \/ is_policy policy = true) -> Forall (fun a => is_policy a = false) sub -> extra <= length sub ->
    map_find cmd reg = Some (sc, transform_handler V F load_file save_file extra setup) -> setup policy sub = Some core ->
    does reg policy cmd sub core.
  Proof.
    intros P N L R S i st v H. unfold execute. rewrite R. unfold transform_handler. rewrite tc_policy, tc_filter by assumption.
    destruct (Nat.ltb_spec (length sub) extra); [lia|]. rewrite S. unfold load_arg. rewrite dollar_var. cbn [tl as_var].
    rewrite tc_in_clean, H. destruct (core v); [|reflexivity]. unfold save_arg. rewrite dollar_var. reflexivity.
  Qed.
  Lemma does_scalar (load_file : F -> str -> option any) reg policy cmd sub sc extra setup core :
    (policy = [] \/ is_policy policy = true) -> Forall (fun a => is_policy a = false) sub -> extra <= S (length sub) ->
    map_find cmd reg = Some (sc, scalar_handler V F load_file extra setup) -> setup policy sub = Some core ->
    does reg policy cmd sub core.
  Proof.
    intros P N L R S i st v H. unfold execute. rewrite R. unfold scalar_handler. rewrite scalar_args_spec, tc_filter by assumption.
    assert (E : last (filter is_policy (tc_args policy sub i)) [] = policy).
    { unfold tc_args. rewrite filter_app. assert (Q : filter is_policy ([as_var (tc_in i); as_var (tc_out i)] ++ sub) = []).
      { simpl app. cbn [filter]. rewrite !is_policy_var. clear -N. induction N as [|a l E _ IH]; [reflexivity|]. simpl. rewrite E. exact IH. }
      rewrite Q, app_nil_r. destruct policy as [|c p]; [reflexivity|].
      change (filter is_policy [c :: p]) with (if is_policy (c :: p) then [c :: p] else []).
      destruct P as [P|P]; [discriminate|]. rewrite P. reflexivity. }
    rewrite E. destruct (Nat.ltb_spec (length (as_var (tc_out i) :: sub)) extra) as [Q|Q]; [simpl in Q; lia|].
    cbn [tl]. rewrite S. unfold load_arg. rewrite dollar_var. cbn [tl as_var].
    rewrite tc_in_clean, H. destruct (core v); [|reflexivity]. rewrite dollar_var. reflexivity.
  Qed.

  (** the result for an element: what the command gives, or what is left in the output variable *)
  Definition result_of (core : any -> option any) (st : state) (i : nat) (x : any) : option any :=
    match core x with Some w => Some w | None => var st (tc_out i) end.

  Lemma body_ok reg policy cmd sub core i x st r : does reg policy cmd sub core -> result_of core st i x = Some r ->
    exists st', tc_body A F reg policy cmd sub i x st = (st', Some r) /\ files V F st' = files V F st
      /\ forall m, var st' m = if eqs m (tc_in i) || eqs m (tc_out i) then None else var st m.
  Proof.
    intros D R. unfold tc_body. rewrite (D i (put (tc_in i) x st) x) by (rewrite var_put, tc_in_clean, eqs_refl; reflexivity).
    unfold result_of in R. unfold ws_retrieve_any. rewrite tc_out_clean.
    assert (NO : eqs (tc_out i) (tc_in i) = false) by (apply eqs_neq; intros E; symmetry in E; exact (tc_in_out _ _ E)).
    destruct (core x) as [w|] eqn:C.
    - rewrite var_put, tc_out_clean, eqs_refl. injection R as <-. eexists; split; [reflexivity|]. split; [reflexivity|].
      intros m. rewrite !var_del, !var_put, tc_in_clean, tc_out_clean.
      destruct (eqs m (tc_out i)); [rewrite Bool.orb_true_r; reflexivity|]. rewrite Bool.orb_false_r. destruct (eqs m (tc_in i)); reflexivity.
    - rewrite var_put, tc_in_clean, NO, R. eexists; split; [reflexivity|]. split; [reflexivity|].
      intros m. rewrite !var_del, !var_put, tc_in_clean, tc_out_clean.
      destruct (eqs m (tc_out i)); [rewrite Bool.orb_true_r; reflexivity|]. rewrite Bool.orb_false_r. destruct (eqs m (tc_in i)); reflexivity.
  Qed.
  Lemma body_fail reg policy cmd sub core i x st : does reg policy cmd sub core -> result_of core st i x = None ->
    tc_body A F reg policy cmd sub i x st = (put (tc_in i) x st, None).
  Proof.
    intros D R. unfold tc_body. rewrite (D i (put (tc_in i) x st) x) by (rewrite var_put, tc_in_clean, eqs_refl; reflexivity).
    unfold result_of in R. unfold ws_retrieve_any. rewrite tc_out_clean. destruct (core x) as [w|]; [discriminate|].
    assert (NO : eqs (tc_out i) (tc_in i) = false) by (apply eqs_neq; intros E; symmetry in E; exact (tc_in_out _ _ E)).
    rewrite var_put, tc_in_clean, NO, R. reflexivity.
  Qed.

  Fixpoint results (core : any -> option any) (st : state) (i : nat) (xs : list any) : option (list any) :=
    match xs with
    | [] => Some []
    | x :: xs => match result_of core st i x, results core st (S i) xs with Some r, Some rs => Some (r :: rs) | _, _ => None end
    end.
  Lemma results_ext core st st' xs : forall i, (forall j, i <= j -> var st' (tc_out j) = var st (tc_out j)) ->
    results core st' i xs = results core st i xs.
  Proof.
    induction xs as [|x xs IH]; intros i H; [reflexivity|]. cbn [results]. rewrite IH by (intros; apply H; lia).
    unfold result_of. rewrite H by lia. reflexivity.
  Qed.
  Lemma temp_dec i n m : {temp i n m} + {~ temp i n m}.
  Proof.
    revert i. induction n as [|n IH]; intros i; [right; intros (j & L & _); lia|].
    destruct (IH (S i)) as [Y|N]; [left; destruct Y as (j & L & E); exists j; split; [lia|exact E]|].
    destruct (eqs_spec m (tc_in i)) as [->|N1]; [left; exists i; split; [lia|auto]|].
    destruct (eqs_spec m (tc_out i)) as [->|N2]; [left; exists i; split; [lia|auto]|].
    right. intros (j & L & E). destruct (Nat.eq_dec j i) as [->|NE]; [destruct E; contradiction|].
    apply N. exists j. split; [lia|exact E].
  Qed.

  Lemma loop_ok reg policy cmd sub core : does reg policy cmd sub core ->
    forall xs i st rs, results core st i xs = Some rs ->
    exists st', tc_loop A F reg policy cmd sub i xs st = (st', Some rs) /\ files V F st' = files V F st
      /\ (forall m, temp i (length xs) m -> var st' m = None)
      /\ (forall m, ~ temp i (length xs) m -> var st' m = var st m).
  Proof.
    intros D. induction xs as [|x xs IH]; intros i st rs R.
    - injection R as <-. exists st. repeat split; try reflexivity. intros m (j & L & _). simpl in L. lia.
    - cbn [results] in R. destruct (result_of core st i x) as [r|] eqn:E; [|discriminate].
      destruct (results core st (S i) xs) as [rs'|] eqn:E'; [|discriminate]. injection R as <-.
      destruct (body_ok _ _ _ _ _ _ _ _ _ D E) as (st1 & B & F1 & G).
      assert (N1 : forall j, S i <= j -> eqs (tc_out j) (tc_in i) || eqs (tc_out j) (tc_out i) = false).
      { intros j L. apply Bool.orb_false_intro; apply eqs_neq; [intros Q; symmetry in Q; exact (tc_in_out _ _ Q)|intros Q; apply tc_out_inj in Q; lia]. }
      rewrite <- (results_ext core st st1) in E' by (intros j L; rewrite G, N1 by exact L; reflexivity).
      destruct (IH _ _ _ E') as (st2 & Q & F2 & T2 & O2).
      exists st2. cbn [tc_loop]. rewrite B. simpl. rewrite Q. split; [reflexivity|]. split; [congruence|]. split.
      + intros m (j & L & M). destruct (temp_dec (S i) (length xs) m) as [Y|N]; [exact (T2 m Y)|]. rewrite (O2 m N), G.
        destruct (Nat.eq_dec j i) as [->|NE]; [|exfalso; apply N; exists j; cbn [length] in L; split; [lia|exact M]].
        destruct M as [->| ->]; rewrite eqs_refl, ?Bool.orb_true_r; reflexivity.
      + intros m N. assert (N' : ~ temp (S i) (length xs) m) by (intros (j & L & M); apply N; exists j; cbn [length]; split; [lia|exact M]).
        rewrite (O2 m N'), G. destruct (eqs_spec m (tc_in i)) as [->|_]; [exfalso; apply N; exists i; cbn [length]; split; [lia|auto]|].
        destruct (eqs_spec m (tc_out i)) as [->|_]; [exfalso; apply N; exists i; cbn [length]; split; [lia|auto]|]. reflexivity.
  Qed.

  (** the first element without a result stops the loop *)
  Lemma loop_fail reg policy cmd sub core : does reg policy cmd sub core ->
    forall pre i st rs x post, results core st i pre = Some rs -> result_of core st (i + length pre) x = None ->
    exists st', tc_loop A F reg policy cmd sub i (pre ++ x :: post) st = (st', None) /\ files V F st' = files V F st
      /\ var st' (tc_in (i + length pre)) = Some x
      /\ (forall m, temp i (length pre) m -> var st' m = None)
      /\ (forall m, ~ temp i (length pre) m -> m <> tc_in (i + length pre) -> var st' m = var st m).
  Proof.
    intros D. induction pre as [|y pre IH]; intros i st rs x post R H.
    - cbn [app tc_loop length] in *. rewrite Nat.add_0_r in *. rewrite (body_fail _ _ _ _ _ _ _ _ D H). eexists; split; [reflexivity|].
      split; [reflexivity|]. rewrite var_put, tc_in_clean, eqs_refl. split; [reflexivity|]. split; [intros m (j & L & _); lia|].
      intros m _ N. rewrite var_put, tc_in_clean. apply eqs_neq in N. rewrite N. reflexivity.
    - cbn [results] in R. destruct (result_of core st i y) as [r|] eqn:E; [|discriminate].
      destruct (results core st (S i) pre) as [rs'|] eqn:E'; [|discriminate]. injection R as <-.
      destruct (body_ok _ _ _ _ _ _ _ _ _ D E) as (st1 & B & F1 & G).
      assert (N1 : forall j, S i <= j -> eqs (tc_out j) (tc_in i) || eqs (tc_out j) (tc_out i) = false).
      { intros j L. apply Bool.orb_false_intro; apply eqs_neq; [intros Q; symmetry in Q; exact (tc_in_out _ _ Q)|intros Q; apply tc_out_inj in Q; lia]. }
      rewrite <- (results_ext core st st1) in E' by (intros j L; rewrite G, N1 by exact L; reflexivity).
      assert (H' : result_of core st1 (S i + length pre) x = None).
      { unfold result_of in *. cbn [length] in H. replace (i + S (length pre)) with (S i + length pre) in H by lia.
        destruct (core x); [discriminate|]. rewrite G, N1 by lia. exact H. }
      destruct (IH _ _ _ _ post E' H') as (st2 & Q & F2 & I2 & T2 & O2).
      exists st2. cbn [app tc_loop]. rewrite B. simpl app in Q. rewrite Q. cbn [length]. replace (i + S (length pre)) with (S i + length pre) by lia.
      split; [reflexivity|]. split; [congruence|]. split; [exact I2|]. split.
      + intros m (j & L & M). destruct (temp_dec (S i) (length pre) m) as [Y|N]; [exact (T2 m Y)|].
        destruct (Nat.eq_dec j i) as [->|NE]; [|exfalso; apply N; exists j; cbn [length] in L; split; [lia|exact M]].
        rewrite (O2 m N).
        * rewrite G. destruct M as [->| ->]; rewrite eqs_refl, ?Bool.orb_true_r; reflexivity.
        * destruct M as [->| ->]; intros Q2; [apply tc_in_inj in Q2; lia|symmetry in Q2; exact (tc_in_out _ _ Q2)].
      + intros m N NE. assert (N' : ~ temp (S i) (length pre) m) by (intros (j & L & M); apply N; exists j; split; [lia|exact M]).
        rewrite (O2 m N' NE), G. destruct (eqs_spec m (tc_in i)) as [->|_]; [exfalso; apply N; exists i; split; [lia|auto]|].
        destruct (eqs_spec m (tc_out i)) as [->|_]; [exfalso; apply N; exists i; split; [lia|auto]|]. reflexivity.
  Qed.

  (** ** the threads *)
  Section Par.
    Variable core : any -> option any.
    Variable xs : list any.
    Variable st0 : state.
    (** what holds of the variables of an element whose thread is at [p] *)
    Definition in_at (p : nat) (i : nat) (x : any) : option any :=
      if p =? 0 then var st0 (tc_in i) else if p <=? 4 then Some x else None.
    Definition out_at (p : nat) (i : nat) (x : any) : option any :=
      if p <=? 2 then var st0 (tc_out i) else if p <=? 5 then result_of core st0 i x else None.
    Definition local_ok (i : nat) (x : any) (t : thread A) : Prop :=
      pc A t <= 6 /\ (pc A t = 2 -> got A t = Some x)
      /\ (4 <= pc A t -> result A t = result_of core st0 i x /\ result_of core st0 i x <> None).
    Definition ginv (g : gstate A F) : Prop :=
      length (threads A F g) = length xs /\ files V F (gst A F g) = files V F st0
      /\ (forall i x t, nth_error xs i = Some x -> nth_error (threads A F g) i = Some t ->
            local_ok i x t /\ var (gst A F g) (tc_in i) = in_at (pc A t) i x /\ var (gst A F g) (tc_out i) = out_at (pc A t) i x)
      /\ (forall m, ~ temp 0 (length xs) m -> var (gst A F g) m = var st0 m)
      /\ (dead A F g = true -> exists i x, nth_error xs i = Some x /\ result_of core st0 i x = None).

    Lemma start_inv : ginv (tc_start A F xs st0).
    Proof.
      unfold ginv, tc_start. simpl. rewrite repeat_length. repeat split; try discriminate.
      - apply nth_error_In, repeat_spec in H0. subst t. simpl. lia.
      - apply nth_error_In, repeat_spec in H0. subst t. simpl. discriminate.
      - apply nth_error_In, repeat_spec in H0. subst t. simpl in H1. lia.
      - apply nth_error_In, repeat_spec in H0. subst t. simpl in H1. lia.
      - apply nth_error_In, repeat_spec in H0. subst t. reflexivity.
      - apply nth_error_In, repeat_spec in H0. subst t. reflexivity.
    Qed.

    Lemma temp_i i : i < length xs -> temp 0 (length xs) (tc_in i) /\ temp 0 (length xs) (tc_out i).
    Proof. intros L. split; exists i; split; try lia; auto. Qed.

    (** a step of thread [i] that changes its own variables as it should *)
    Lemma go_inv g i x t st' t' : ginv g -> dead A F g = false -> nth_error xs i = Some x -> nth_error (threads A F g) i = Some t ->
      files V F st' = files V F (gst A F g) ->
      (forall m, m <> tc_in i -> m <> tc_out i -> var st' m = var (gst A F g) m) ->
      local_ok i x t' -> var st' (tc_in i) = in_at (pc A t') i x -> var st' (tc_out i) = out_at (pc A t') i x ->
      ginv (mkG A F st' (list_upd i t' (threads A F g)) false).
    Proof.
      intros (L & FF & T & O & DD) _ X TH F' G LO I1 O1. unfold ginv. simpl.
      assert (Li : i < length xs) by (apply nth_error_Some; congruence).
      rewrite list_upd_length. split; [exact L|]. split; [congruence|]. split; [|split; [|discriminate]].
      - intros j y u Y U. destruct (Nat.eq_dec j i) as [->|NE].
        + rewrite list_upd_same in U by congruence. injection U as <-. assert (y = x) by congruence. subst y. auto.
        + rewrite list_upd_other in U by exact NE. destruct (T j y u Y U) as (A1 & A2 & A3). split; [exact A1|].
          rewrite !G.
          * split; assumption.
          * intros Q; symmetry in Q; exact (tc_in_out _ _ Q).
          * intros Q; apply tc_out_inj in Q; congruence.
          * intros Q; apply tc_in_inj in Q; congruence.
          * apply tc_in_out.
      - intros m N. rewrite G; [apply O; exact N| |]; intros ->; apply N; apply temp_i; exact Li.
    Qed.

    Ltac put_other := intros m Nin Nout; rewrite ?var_put, ?var_del, ?tc_in_clean, ?tc_out_clean; apply eqs_neq in Nin; apply eqs_neq in Nout; rewrite ?Nin, ?Nout; reflexivity.
    Lemma step_inv g i : ginv g -> ginv (tc_step A F core xs i g).
    Proof.
      intros G. unfold tc_step. destruct (dead A F g) eqn:DG; [exact G|].
      destruct (nth_error xs i) as [x|] eqn:X; [|exact G]. destruct (nth_error (threads A F g) i) as [t|] eqn:TH; [|exact G].
      pose proof G as (L & FF & T & O & DD). destruct (T i x t X TH) as ((P6 & P2 & P4) & I1 & O1).
      assert (NO : eqs (tc_out i) (tc_in i) = false) by (apply eqs_neq; intros E; symmetry in E; exact (tc_in_out _ _ E)).
      assert (NI : eqs (tc_in i) (tc_out i) = false) by (apply eqs_neq; apply tc_in_out).
      destruct (pc A t) as [|[|[|[|[|[|n]]]]]] eqn:PC; cbn in I1, O1.
      - eapply (go_inv g i x t); try eassumption; try reflexivity; try put_other.
        + unfold local_ok. simpl. repeat split; try discriminate; lia.
        + rewrite var_put, tc_in_clean, eqs_refl. reflexivity.
        + rewrite var_put, tc_in_clean, NO. exact O1.
      - unfold ws_retrieve_any. rewrite tc_in_clean, I1. eapply (go_inv g i x t); try eassumption; try reflexivity; try put_other.
        unfold local_ok. simpl. repeat split; try reflexivity; lia.
      - rewrite (P2 eq_refl). unfold result_of in *. destruct (core x) as [w|] eqn:C.
        + eapply (go_inv g i x t); try eassumption; try reflexivity; try put_other.
          * unfold local_ok. simpl. repeat split; try discriminate; lia.
          * rewrite var_put, tc_out_clean, NI. exact I1.
          * rewrite var_put, tc_out_clean, eqs_refl. unfold out_at, result_of. simpl. rewrite C. reflexivity.
        + eapply (go_inv g i x t); try eassumption; try reflexivity; try put_other.
          * unfold local_ok. simpl. repeat split; try discriminate; lia.
          * unfold out_at, result_of. simpl. rewrite C. exact O1.
      - unfold ws_retrieve_any. rewrite tc_out_clean, O1. destruct (result_of core st0 i x) as [r|] eqn:R.
        + eapply (go_inv g i x t); try eassumption; try reflexivity; try put_other.
          * unfold local_ok. simpl. rewrite R. repeat split; try discriminate; try reflexivity; lia.
          * unfold out_at. simpl. congruence.
        + unfold ginv. simpl. split; [exact L|]. split; [exact FF|]. split; [exact T|]. split; [exact O|]. intros _. exists i, x. auto.
      - eapply (go_inv g i x t); try eassumption; try reflexivity; try put_other.
        + unfold local_ok. simpl. repeat split; try discriminate; try lia; apply P4; lia.
        + rewrite var_del, tc_in_clean, eqs_refl. reflexivity.
        + rewrite var_del, tc_in_clean, NO. exact O1.
      - eapply (go_inv g i x t); try eassumption; try reflexivity; try put_other.
        + unfold local_ok. simpl. repeat split; try discriminate; try lia; apply P4; lia.
        + rewrite var_del, tc_out_clean, NI. exact I1.
        + rewrite var_del, tc_out_clean, eqs_refl. reflexivity.
      - exact G.
    Qed.

    Lemma run_inv order : forall g, ginv g -> ginv (fold_left (fun g i => tc_step A F core xs i g) order g).
    Proof. induction order as [|i order IH]; intros g G; [exact G|]. simpl. apply IH, step_inv, G. Qed.

    (** a living thread gets on by one with each of its turns *)
    Definition pc_of (g : gstate A F) (i : nat) : nat := match nth_error (threads A F g) i with Some t => pc A t | None => 0 end.
    Lemma step_dead g i : dead A F g = true -> tc_step A F core xs i g = g.
    Proof. intros D. unfold tc_step. rewrite D. reflexivity. Qed.
    Lemma step_pc g i j : ginv g -> i < length xs -> dead A F (tc_step A F core xs i g) = false ->
      pc_of (tc_step A F core xs i g) j = if j =? i then Nat.min 6 (S (pc_of g j)) else pc_of g j.
    Proof.
      intros G Li D. destruct (dead A F g) eqn:DG; [rewrite step_dead in D by exact DG; congruence|].
      pose proof G as (L & FF & T & _). unfold tc_step in *. rewrite DG in *.
      destruct (nth_error xs i) as [x|] eqn:X; [|apply nth_error_None in X; lia].
      destruct (nth_error (threads A F g) i) as [t|] eqn:TH; [|apply nth_error_None in TH; lia].
      destruct (T i x t X TH) as ((P6 & _) & _).
      assert (U : forall st' t', pc A t' = Nat.min 6 (S (pc A t)) ->
        pc_of (mkG A F st' (list_upd i t' (threads A F g)) false) j = if j =? i then Nat.min 6 (S (pc_of g j)) else pc_of g j).
      { intros st' t' Q. unfold pc_of. simpl. destruct (Nat.eqb_spec j i) as [->|NE].
        - rewrite list_upd_same by congruence. rewrite TH. exact Q.
        - rewrite list_upd_other by exact NE. reflexivity. }
      destruct (pc A t) as [|[|[|[|[|[|n]]]]]] eqn:PC; try (apply U; reflexivity).
      - destruct (ws_retrieve_any V (tc_out i) (vars V F (gst A F g))); [apply U; reflexivity|discriminate].
      - destruct (Nat.eqb_spec j i) as [->|NE]; [|reflexivity]. unfold pc_of. rewrite TH, PC.
        change (Nat.min 6 (S (S (S (S (S (S (S n)))))))) with 6. lia.
    Qed.
    Lemma run_dead order : forall g, dead A F g = true -> fold_left (fun g i => tc_step A F core xs i g) order g = g.
    Proof. induction order as [|i order IH]; intros g D; [reflexivity|]. simpl. rewrite step_dead by exact D. apply IH, D. Qed.
    Lemma step_alive g i : dead A F (tc_step A F core xs i g) = false -> dead A F g = false.
    Proof. destruct (dead A F g) eqn:E; [|reflexivity]. rewrite step_dead by exact E. congruence. Qed.
    Lemma run_pc order : forall g, ginv g -> dead A F (fold_left (fun g i => tc_step A F core xs i g) order g) = false ->
      forall j, j < length xs -> pc_of (fold_left (fun g i => tc_step A F core xs i g) order g) j = Nat.min 6 (pc_of g j + count_occ Nat.eq_dec order j).
    Proof.
      induction order as [|i order IH]; intros g G D j J.
      - cbn [fold_left count_occ]. rewrite Nat.add_0_r. pose proof G as (L & _ & T & _). unfold pc_of. destruct (nth_error (threads A F g) j) as [t|] eqn:TH; [|reflexivity].
        destruct (nth_error xs j) as [x|] eqn:X; [|apply nth_error_None in X; lia]. destruct (T j x t X TH) as ((P6 & _) & _). lia.
      - cbn [fold_left count_occ] in *. assert (D1 : dead A F (tc_step A F core xs i g) = false).
        { destruct (dead A F (tc_step A F core xs i g)) eqn:E; [|reflexivity]. rewrite run_dead in D by exact E. congruence. }
        rewrite IH by (try apply step_inv; assumption).
        destruct (Nat.lt_ge_cases i (length xs)) as [Li|Li].
        + rewrite step_pc by assumption. destruct (Nat.eqb_spec j i) as [->|NE].
          * destruct (Nat.eq_dec i i); [lia|congruence].
          * destruct (Nat.eq_dec i j); [congruence|reflexivity].
        + assert (E : tc_step A F core xs i g = g).
          { unfold tc_step. destruct (dead A F g); [reflexivity|]. destruct (nth_error xs i) eqn:X; [|reflexivity].
            assert (i < length xs) by (apply nth_error_Some; congruence). lia. }
          rewrite E. destruct (Nat.eq_dec i j); [lia|reflexivity].
    Qed.

    Lemma par_inv order : ginv (tc_par A F core xs order st0).
    Proof. apply run_inv, start_inv. Qed.
    Lemma par_pc order j : dead A F (tc_par A F core xs order st0) = false -> j < length xs ->
      pc_of (tc_par A F core xs order st0) j = Nat.min 6 (count_occ Nat.eq_dec order j).
    Proof.
      intros D J. unfold tc_par. rewrite run_pc by (try apply start_inv; assumption). f_equal.
      unfold pc_of, tc_start. simpl. rewrite nth_error_repeat by exact J. reflexivity.
    Qed.
  End Par.
End P.
