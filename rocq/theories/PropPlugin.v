(** PropPlugin.v - dynamic libraries and plugins: C127, C128. *)
From Coq Require Import Ascii String.
From Verif Require Import Base CliModel CliProofs PluginModel.
Open Scope nat_scope.

(** ** C127  Every library that is opened is closed exactly once *)
(** the number of objects that hold the library [f] *)
Definition holds (f : nat) (o : option library) : nat := match o with Some (Some g) => if g =? f then 1 else 0 | _ => 0 end.
Definition held (f : nat) (p : places) : nat := list_sum (map (holds f) p).

Lemma held_upd f p : forall k o v, nth_error p k = Some o -> held f (list_upd k v p) + holds f o = held f p + holds f v.
Proof.
  induction p as [|a p IH]; intros [|k] o v H; try discriminate.
  - injection H as ->. unfold held. simpl. lia.
  - unfold held in *. simpl in *. specialize (IH k o v H). lia.
Qed.
Lemma held_in f p : forall k, nth_error p k = Some (Some (Some f)) -> 1 <= held f p.
Proof.
  induction p as [|a p IH]; intros [|k] H; try discriminate.
  - injection H as ->. unfold held. simpl. rewrite Nat.eqb_refl. lia.
  - unfold held in *. simpl. specialize (IH k H). lia.
Qed.
Lemma destroy_ok l p k w : (forall f, w f = held f p) -> nth_error p k = Some (Some l) ->
  exists w', lib_destroy l w = Ok w' /\ forall f, w' f + holds f (Some l) = w f.
Proof.
  intros I H. destruct l as [g|]; simpl.
  - unfold w_close. pose proof (held_in g p k H) as B. rewrite <- I in B. destruct (Nat.eqb_spec (w g) 0); [lia|].
    eexists; split; [reflexivity|]. intros f. simpl. rewrite (Nat.eqb_sym g f). destruct (Nat.eqb_spec f g) as [->|]; lia.
  - exists w. split; [reflexivity|]. intros; lia.
Qed.
Lemma exec_inv openable op p w : (forall f, w f = held f p) -> forall r, lib_exec openable op p w = Some r ->
  exists p' w', r = Ok (p', w') /\ forall f, w' f = held f p'.
Proof.
  intros I r H. destruct op as [k f|k j|k j|k]; unfold lib_exec in H.
  - destruct (nth_error p k) as [[l|]|] eqn:K; try discriminate. unfold lib_new in H. destruct (openable f); injection H as <-; [|eauto].
    eexists _, _. split; [reflexivity|]. intros g. pose proof (held_upd g p k _ (Some (Some f : library)) K) as U.
    unfold w_open. cbn [holds] in U. rewrite I. rewrite (Nat.eqb_sym f g) in U. destruct (g =? f); lia.
  - destruct (nth_error p k) as [[a|]|] eqn:K; try discriminate. destruct (nth_error p j) as [[l|]|] eqn:J; try discriminate.
    simpl in H. injection H as <-. eexists _, _. split; [reflexivity|]. intros f. pose proof (held_upd f p k _ (Some l) K) as U.
    assert (NE : j <> k) by congruence. pose proof (held_upd f (list_upd k (Some l) p) j (Some l) (Some None)) as U2.
    rewrite list_upd_other in U2 by exact NE. specialize (U2 J). cbn [holds] in *. rewrite I. lia.
  - destruct (nth_error p k) as [[a|]|] eqn:K; try discriminate. destruct (nth_error p j) as [[b|]|] eqn:J; try discriminate.
    destruct (Nat.eqb_spec k j) as [->|NE]; [injection H as <-; eauto|].
    destruct (destroy_ok a p k w I K) as (w' & D & W). unfold lib_assign in H. rewrite D in H. simpl in H. injection H as <-.
    eexists _, _. split; [reflexivity|]. intros f. pose proof (held_upd f p k _ (Some b) K) as U.
    pose proof (held_upd f (list_upd k (Some b) p) j (Some b) (Some None)) as U2.
    rewrite list_upd_other in U2 by congruence. specialize (U2 J). cbn [holds] in *. specialize (W f). rewrite I in W. lia.
  - destruct (nth_error p k) as [[a|]|] eqn:K; try discriminate. destruct (destroy_ok a p k w I K) as (w' & D & W).
    rewrite D in H. simpl in H. injection H as <-. eexists _, _. split; [reflexivity|]. intros f.
    pose proof (held_upd f p k _ None K) as U. cbn [holds] in *. specialize (W f). rewrite I in W. lia.
Qed.

(** whatever a program does with its objects: nothing is ever closed that is not open, and a library is open as many times as there
    are objects that hold it *)
Theorem C127_raii : forall openable ops n r,
  lib_run openable ops (repeat None n) (fun _ => 0) = Some r ->
  exists p w, r = Ok (p, w) /\ forall f, w f = held f p.
Proof.
  intros openable ops n.
  assert (G : forall ops p w r, (forall f, w f = held f p) -> lib_run openable ops p w = Some r ->
    exists p' w', r = Ok (p', w') /\ forall f, w' f = held f p').
  { clear. induction ops as [|op ops IH]; intros p w r I H; [injection H as <-; eauto|]. cbn [lib_run] in H.
    destruct (lib_exec openable op p w) as [r'|] eqn:E; [|discriminate]. destruct (exec_inv _ _ _ _ I _ E) as (p' & w' & -> & I').
    exact (IH _ _ _ I' H). }
  intros r. apply G. intros f. unfold held. induction n as [|n IH]; [reflexivity|]. simpl. exact IH.
Qed.
Print Assumptions C127_raii.
(** when the objects are gone nothing is open *)
Theorem C127_all_closed : forall openable ops n p w,
  lib_run openable ops (repeat None n) (fun _ => 0) = Some (Ok (p, w)) -> (forall o, In o p -> o = None) -> forall f, w f = 0.
Proof.
  intros openable ops n p w H N f. destruct (C127_raii _ _ _ _ H) as (p' & w' & E & I). injection E as <- <-. rewrite I.
  unfold held. induction p as [|o p IH]; [reflexivity|]. simpl. rewrite (N o (or_introl eq_refl)). simpl. clear -N.
  induction p as [|a p IH]; [reflexivity|]. simpl. rewrite (N a) by (right; left; reflexivity). apply IH.
  intros o' [E|E]; apply N; [left; exact E|right; right; exact E].
Qed.
Print Assumptions C127_all_closed.
(** a move leaves the library open and gives it to the new object; an assignment closes the old library of the target *)
Theorem C127_moves : forall openable p w k j l,
  nth_error p j = Some (Some l) ->
  (nth_error p k = Some None -> exists p', lib_exec openable (Move k j) p w = Some (Ok (p', w))
     /\ nth_error p' k = Some (Some l) /\ nth_error p' j = Some (Some None))
  /\ (forall a, nth_error p k = Some (Some (Some a)) -> k <> j -> 1 <= w a -> exists p' w', lib_exec openable (Assign k j) p w = Some (Ok (p', w'))
     /\ nth_error p' k = Some (Some l) /\ nth_error p' j = Some (Some None) /\ w' a = w a - 1 /\ forall f, f <> a -> w' f = w f)
  /\ lib_exec openable (Assign j j) p w = Some (Ok (p, w)).
Proof.
  intros openable p w k j l J. assert (Lj : j < length p) by (apply nth_error_Some; congruence). split; [|split].
  - intros K. assert (Lk : k < length p) by (apply nth_error_Some; congruence). assert (NE : k <> j) by congruence.
    unfold lib_exec. rewrite K, J. eexists. split; [reflexivity|]. rewrite list_upd_other by exact NE. rewrite !list_upd_same by (rewrite ?list_upd_length; assumption). auto.
  - intros a K NE O. assert (Lk : k < length p) by (apply nth_error_Some; congruence).
    unfold lib_exec. rewrite K, J. destruct (Nat.eqb_spec k j); [contradiction|]. unfold lib_assign. simpl. unfold w_close.
    destruct (Nat.eqb_spec (w a) 0); [lia|]. simpl. eexists _, _. split; [reflexivity|].
    rewrite list_upd_other by exact NE. rewrite !list_upd_same by (rewrite ?list_upd_length; assumption). rewrite Nat.eqb_refl.
    repeat split. intros f NF. apply Nat.eqb_neq in NF. rewrite NF. reflexivity.
  - unfold lib_exec. rewrite J, Nat.eqb_refl. reflexivity.
Qed.
Print Assumptions C127_moves.
Example C127_ex : exists p w, lib_run (fun _ => true) [New 0 7; New 1 8; Move 2 0; Assign 2 1; Destroy 0; New 0 8; Destroy 1] (repeat None 3) (fun _ => 0) = Some (Ok (p, w))
  /\ p = [Some (Some 8); None; Some (Some 8)] /\ w 7 = 0 /\ w 8 = 2.
Proof. eexists _, _. split; [reflexivity|]. repeat split. Qed.

(** ** C128  Plugins *)
(** at the start: the commands of the program *)
Definition boot (core : list str) : session := mkSession (fold_left (fun r c => map_emplace c None r) core []) [] (fun _ => 0).
(** load_plugins called for one directory after the other *)
Definition loads (openable grow : nat -> bool) (dirs : list (list entry)) (s : session) : res session :=
  for_list dirs (load_plugins openable grow) s.
(** the number of objects in the vector that hold [f] *)
Definition kept (f : nat) (s : session) : nat := held f (map Some (active s)).

Lemma held_app f a b : held f (a ++ b) = held f a + held f b.
Proof. unfold held. rewrite map_app. apply list_sum_app. Qed.
Lemma move_all_ok l : forall w, move_all l w = Ok (l, w).
Proof. induction l as [|a l IH]; intros w; [reflexivity|]. simpl. rewrite IH. reflexivity. Qed.
Lemma emplace_ok grow v l w : emplace_back grow v l w = Ok (v ++ [l], None, w).
Proof. unfold emplace_back. simpl. destruct (grow (length v)); [rewrite move_all_ok|]; reflexivity. Qed.
Lemma register_find f cs : forall (r : owners) n,
  map_find n (fold_left (fun r c => map_emplace c (Some f) r) cs r) =
  match map_find n r with Some o => Some o | None => if existsb (fun c => eqs n c) cs then Some (Some f) else None end.
Proof.
  induction cs as [|c cs IH]; intros r n; [simpl; destruct (map_find n r); reflexivity|]. cbn [fold_left existsb]. rewrite IH, find_emplace.
  destruct (map_find n r) as [o|]; [reflexivity|]. destruct (eqs n c); reflexivity.
Qed.

(** the code of the handlers is there *)
Definition present (s : session) (r : owners) : Prop := Forall (fun h => match snd h with Some f => 1 <= open s f | None => True end) r.
Lemma emplace_forall {B} (P : str * B -> Prop) k v m : P (k, v) -> Forall P m -> Forall P (map_emplace k v m).
Proof. intros H F. unfold map_emplace. destruct (map_find k m); [exact F|apply set_forall; assumption]. Qed.
Lemma register_forall (P : str * option nat -> Prop) f cs : (forall n, P (n, Some f)) -> forall r, Forall P r ->
  Forall P (fold_left (fun r c => map_emplace c (Some f) r) cs r).
Proof. intros H. induction cs as [|c cs IH]; intros r F; [exact F|]. simpl. apply IH, emplace_forall; [apply H|exact F]. Qed.

(** what loading one file does *)
Lemma load_one_spec openable grow e s : (forall f, open s f = kept f s) ->
  exists s', load_one openable grow e s = Ok s' /\ (forall f, open s' f = kept f s')
    /\ (forall f, kept f s <= kept f s')
    /\ (forall n o, map_find n (reg s) = Some o -> map_find n (reg s') = Some o)
    /\ (throws e = false -> present s (reg s) -> present s' (reg s'))
    /\ (is_library e = true -> openable (file e) = true -> has_symbol e = true -> throws e = false ->
          active s' = active s ++ [Some (file e)]
          /\ forall n, map_find n (reg s) = None -> map_find n (reg s') = if existsb (fun c => eqs n c) (commands e) then Some (Some (file e)) else None).
Proof.
  intros I. unfold load_one. destruct (is_library e); cbn [negb].
  2: { exists s. split; [reflexivity|]. split; [exact I|]. split; [intros; lia|]. split; [auto|]. split; [auto|]. intros; discriminate. }
  unfold lib_new. destruct (openable (file e)).
  2: { exists s. split; [reflexivity|]. split; [exact I|]. split; [intros; lia|]. split; [auto|]. split; [auto|]. intros; discriminate. }
  assert (CL : exists w', lib_destroy (Some (file e)) (w_open (file e) (open s)) = Ok w' /\ forall f, w' f = open s f).
  { unfold lib_destroy, w_close. unfold w_open at 1. rewrite Nat.eqb_refl. simpl. eexists; split; [reflexivity|].
    intros f. unfold w_open. simpl. destruct (f =? file e); lia. }
  destruct CL as (w' & CL & W). destruct (has_symbol e); cbn [negb].
  2: { rewrite CL. simpl. eexists. split; [reflexivity|]. simpl. split; [intros f; rewrite W; apply I|]. split; [intros f; unfold kept; simpl; lia|].
       split; [auto|]. split; [|intros; discriminate]. intros _. unfold present. simpl. apply Forall_impl. intros [n [f|]]; simpl; [rewrite W|]; auto. }
  destruct (throws e).
  - rewrite CL. simpl. eexists. split; [reflexivity|]. simpl. split; [intros f; rewrite W; apply I|]. split; [intros f; unfold kept; simpl; lia|].
    split; [intros n o N; rewrite register_find, N; reflexivity|]. split; intros; discriminate.
  - rewrite emplace_ok. simpl. eexists. split; [reflexivity|]. unfold kept in *. simpl.
    assert (K : forall f, held f (map Some (active s ++ [Some (file e)])) = held f (map Some (active s)) + (if file e =? f then 1 else 0)).
    { intros f. rewrite map_app, held_app. f_equal. unfold held. simpl. apply Nat.add_0_r. }
    split; [intros f; rewrite K, <- I; unfold w_open; rewrite (Nat.eqb_sym (file e) f); destruct (f =? file e); lia|].
    split; [intros f; rewrite K; lia|]. split; [intros n o N; rewrite register_find, N; reflexivity|]. split.
    + intros _ P. unfold present. simpl. apply register_forall.
      * intros n. simpl. unfold w_open. rewrite Nat.eqb_refl. lia.
      * revert P. apply Forall_impl. intros [n [f|]]; simpl; [|auto]. unfold w_open. destruct (f =? file e); lia.
    + intros _ _ _ _. split; [reflexivity|]. intros n N. rewrite register_find, N. reflexivity.
Qed.

Definition good (s : session) : Prop := (forall f, open s f = kept f s) /\ present s (reg s).

Lemma entries_spec openable grow dir : forall s, (forall f, open s f = kept f s) ->
  exists s', load_plugins openable grow dir s = Ok s' /\ (forall f, open s' f = kept f s')
    /\ (forall n o, map_find n (reg s) = Some o -> map_find n (reg s') = Some o)
    /\ (Forall (fun e => throws e = false) dir -> good s -> good s').
Proof.
  induction dir as [|e dir IH]; intros s I.
  - exists s. split; [reflexivity|]. auto.
  - destruct (load_one_spec openable grow e s I) as (s1 & E1 & I1 & M1 & R1 & N1 & _).
    destruct (IH s1 I1) as (s2 & E2 & I2 & R2 & G2).
    exists s2. unfold load_plugins in *. cbn [for_list]. rewrite E1. simpl. split; [exact E2|]. split; [exact I2|]. split; [auto|].
    intros F [_ G]. apply G2; [exact (Forall_inv_tail F)|]. split; [exact I1|]. apply N1; [exact (Forall_inv F)|exact G].
Qed.
Lemma loads_spec openable grow dirs : forall s, (forall f, open s f = kept f s) ->
  exists s', loads openable grow dirs s = Ok s' /\ (forall f, open s' f = kept f s')
    /\ (forall n o, map_find n (reg s) = Some o -> map_find n (reg s') = Some o)
    /\ (Forall (Forall (fun e => throws e = false)) dirs -> good s -> good s').
Proof.
  induction dirs as [|d dirs IH]; intros s I.
  - exists s. split; [reflexivity|]. auto.
  - destruct (entries_spec openable grow d s I) as (s1 & E1 & I1 & R1 & G1). destruct (IH s1 I1) as (s2 & E2 & I2 & R2 & G2).
    exists s2. unfold loads in *. cbn [for_list]. rewrite E1. simpl. split; [exact E2|]. split; [exact I2|]. split; [auto|].
    intros F G. apply G2; [exact (Forall_inv_tail F)|]. apply G1; [exact (Forall_inv F)|exact G].
Qed.
Lemma boot_find core n : map_find n (reg (boot core)) = if existsb (fun c => eqs n c) core then Some None else None.
Proof.
  unfold boot. simpl. assert (G : forall (r : owners), (forall m f, map_find m r <> Some (Some f)) ->
    map_find n (fold_left (fun r c => map_emplace c None r) core r) =
    match map_find n r with Some o => Some o | None => if existsb (fun c => eqs n c) core then Some None else None end).
  { induction core as [|c core IH]; intros r N; [simpl; destruct (map_find n r); reflexivity|]. cbn [fold_left existsb]. rewrite IH.
    - rewrite find_emplace. destruct (map_find n r); [reflexivity|]. destruct (eqs n c); reflexivity.
    - intros m f. rewrite find_emplace. specialize (N m f). destruct (map_find m r); [exact N|]. destruct (eqs m c); discriminate. }
  rewrite G by (intros m f; discriminate). reflexivity.
Qed.
Lemma boot_good core : good (boot core).
Proof.
  split; [reflexivity|]. unfold present, boot. simpl. generalize (@nil (str * option nat)) (Forall_nil (fun h : str * option nat => match snd h with Some f => 1 <= 0 | None => True end)).
  induction core as [|c core IH]; intros r F; [exact F|]. simpl. apply IH, emplace_forall; [exact Logic.I|exact F].
Qed.
Lemma find_In {B} n (o : B) m : map_find n m = Some o -> exists k, In (k, o) m.
Proof.
  induction m as [|[k v] m IH]; simpl; [discriminate|]. destruct (eqs n k); intros H; [injection H as <-; eauto|]. destruct (IH H) as (k' & K). eauto.
Qed.

(** however often plugins are loaded, as long as no registration function throws: every command can be run, its code is there *)
Theorem C128_commands : forall openable grow core dirs, Forall (Forall (fun e => throws e = false)) dirs ->
  exists s, loads openable grow dirs (boot core) = Ok s /\ forall n, run_command n s = Ok tt.
Proof.
  intros openable grow core dirs F. destruct (loads_spec openable grow dirs (boot core)) as (s & E & I & R & G); [reflexivity|].
  exists s. split; [exact E|]. intros n. unfold run_command. destruct (map_find n (reg s)) as [[f|]|] eqn:Q; try reflexivity.
  destruct (G F (boot_good core)) as [_ G2]. destruct (find_In _ _ _ Q) as (k & K). unfold present in G2. rewrite Forall_forall in G2.
  specialize (G2 _ K). simpl in G2. destruct (Nat.eqb_spec (open s f) 0); [lia|reflexivity].
Qed.
Print Assumptions C128_commands.
(** a command keeps the handler that was registered first; in particular no plugin replaces a command of the program *)
Theorem C128_first : forall openable grow core dirs1 dirs2 s, loads openable grow dirs1 (boot core) = Ok s ->
  exists s', loads openable grow dirs2 s = Ok s' /\ (forall n o, map_find n (reg s) = Some o -> map_find n (reg s') = Some o)
    /\ (forall c, In c core -> map_find c (reg s') = Some None).
Proof.
  intros openable grow core dirs1 dirs2 s H. destruct (loads_spec openable grow dirs1 (boot core)) as (s1 & E & I & R & _); [reflexivity|].
  assert (s1 = s) by congruence. subst s1. destruct (loads_spec openable grow dirs2 s I) as (s2 & E2 & _ & R2 & _).
  exists s2. split; [exact E2|]. split; [exact R2|]. intros c C. apply R2, R. rewrite boot_find.
  assert (X : existsb (fun d => eqs c d) core = true) by (apply existsb_exists; exists c; split; [exact C|apply eqs_refl]).
  rewrite X. reflexivity.
Qed.
Print Assumptions C128_first.
(** a library that can be opened and registers its commands gives the program exactly those that it did not have *)
Theorem C128_loaded : forall openable grow core dirs e s, loads openable grow dirs (boot core) = Ok s ->
  is_library e = true -> openable (file e) = true -> has_symbol e = true -> throws e = false ->
  exists s', load_plugins openable grow [e] s = Ok s'
    /\ forall n, map_find n (reg s') = match map_find n (reg s) with
                                       | Some o => Some o
                                       | None => if existsb (fun c => eqs n c) (commands e) then Some (Some (file e)) else None
                                       end.
Proof.
  intros openable grow core dirs e s H L O S T. destruct (loads_spec openable grow dirs (boot core)) as (s1 & E & I & R & _); [reflexivity|].
  assert (s1 = s) by congruence. subst s1. destruct (load_one_spec openable grow e s I) as (s2 & E2 & _ & _ & R2 & _ & X).
  destruct (X L O S T) as [_ X2]. exists s2. split; [unfold load_plugins; cbn [for_list]; rewrite E2; reflexivity|].
  intros n. destruct (map_find n (reg s)) as [o|] eqn:Q; [apply R2, Q|apply X2, Q].
Qed.
Print Assumptions C128_loaded.
(** a file that is no library, cannot be opened, or lacks the function changes nothing *)
Theorem C128_skipped : forall openable grow e s,
  is_library e = false \/ openable (file e) = false \/ has_symbol e = false ->
  exists s', load_one openable grow e s = Ok s' /\ reg s' = reg s /\ active s' = active s /\ forall f, open s' f = open s f.
Proof.
  intros openable grow e s H. unfold load_one. destruct (is_library e); cbn [negb]; [|exists s; auto].
  unfold lib_new. destruct (openable (file e)); [|exists s; auto]. destruct H as [H|[H|H]]; try discriminate. rewrite H. cbn [negb].
  unfold lib_destroy, w_close. unfold w_open at 1. rewrite Nat.eqb_refl. simpl. eexists. split; [reflexivity|]. simpl.
  repeat split. intros f. unfold w_open. destruct (f =? file e); lia.
Qed.
Print Assumptions C128_skipped.

Lemma destroy_all l : forall w, (forall f, w f = held f (map Some l)) -> exists w', for_list l lib_destroy w = Ok w' /\ forall f, w' f = 0.
Proof.
  induction l as [|a l IH]; intros w I; [exists w; split; [reflexivity|exact I]|].
  destruct (destroy_ok a (map Some (a :: l)) 0 w I eq_refl) as (w' & D & W).
  cbn [for_list]. rewrite D. simpl. apply IH. intros f. specialize (W f). rewrite I in W. change (held f (map Some (a :: l))) with (holds f (Some a) + held f (map Some l)) in W. lia.
Qed.
(** the end of the program: the handlers are destroyed while their code is there, and every library is closed *)
Theorem C128_shut_down : forall openable grow core dirs, Forall (Forall (fun e => throws e = false)) dirs ->
  exists s w, loads openable grow dirs (boot core) = Ok s /\ shut_down s = Ok w /\ forall f, w f = 0.
Proof.
  intros openable grow core dirs F. destruct (loads_spec openable grow dirs (boot core)) as (s & E & I & R & G); [reflexivity|].
  destruct (G F (boot_good core)) as [_ G2]. destruct (destroy_all (active s) (open s) I) as (w & D & W). exists s, w. split; [exact E|]. split; [|exact W].
  unfold shut_down. assert (S1 : forall l : owners, (forall h, In h l -> match snd h with Some f => 1 <= open s f | None => True end) ->
    for_list l (fun h _ => match snd h with Some f => if open s f =? 0 then UB else Ok tt | None => Ok tt end) tt = Ok tt).
  { induction l as [|h l IH]; intros Q; [reflexivity|]. cbn [for_list]. pose proof (Q h (or_introl eq_refl)) as Qh.
    destruct (snd h) as [f|]; [destruct (Nat.eqb_spec (open s f) 0); [lia|]|]; simpl; apply IH; intros h' Hh; apply Q; right; exact Hh. }
  rewrite S1; [exact D|]. intros h Hh. unfold present in G2. rewrite Forall_forall in G2. exact (G2 h Hh).
Qed.
Print Assumptions C128_shut_down.

(** a plugin whose function throws after it has registered a command is closed again, but the command stays: running it runs code
    that is not there, and so does the end of the program *)
Theorem C128_dangling_refuted : exists openable grow core dirs s n,
  loads openable grow dirs (boot core) = Ok s /\ map_find n (reg s) = Some (Some 7) /\ run_command n s = UB /\ shut_down s = UB.
Proof.
  exists (fun _ => true), (fun _ => true), [lit "copy"], [[mkEntry 7 true true [lit "blur"] true]]. eexists. exists (lit "blur").
  split; [reflexivity|]. repeat split.
Qed.
Print Assumptions C128_dangling_refuted.
(** of two plugins with the same command the one that the directory lists first is used, and the order of a directory is not
    specified: the same directory can give different handlers *)
Theorem C128_order_refuted : exists openable grow core e1 e2 s s' n,
  loads openable grow [[e1; e2]] (boot core) = Ok s /\ loads openable grow [[e2; e1]] (boot core) = Ok s'
  /\ map_find n (reg s) <> map_find n (reg s').
Proof.
  exists (fun _ => true), (fun _ => true), [lit "copy"], (mkEntry 7 true true [lit "blur"] false), (mkEntry 8 true true [lit "blur"] false).
  eexists _, _. exists (lit "blur"). split; [reflexivity|]. split; [reflexivity|]. discriminate.
Qed.
Print Assumptions C128_order_refuted.
Example C128_ex : exists s, loads (fun f => negb (f =? 9)) (fun _ => true)
    [[mkEntry 7 true true [lit "blur"; lit "copy"] false; mkEntry 9 true true [lit "x"] false]; [mkEntry 7 true true [lit "blur"] false; mkEntry 8 true false [] false]] (boot [lit "copy"]) = Ok s
  /\ reg s = [(lit "blur", Some 7); (lit "copy", None)] /\ open s 7 = 2 /\ open s 8 = 0 /\ open s 9 = 0 /\ active s = [Some 7; Some 7].
Proof. eexists. split; [reflexivity|]. repeat split. Qed.
